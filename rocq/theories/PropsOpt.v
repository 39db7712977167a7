(** C46: what a Kalman filter starts with. *)
From Coq Require Import String Ascii List Bool Arith Reals Lra.
From Verif Require Import Py NdArray UtilModel DictLemmas OptModel PropsUtil.
Import ListNotations.
Local Open Scope string_scope.

(** Where a quantity comes from: the option [key], else the result of the
    model's method [attr], else, if there is no such method, zeros. *)
Definition starts_with (m : kmodel) (options : sdict value) (key attr : string) (s : shape) (v : value) : Prop :=
  match dget String.eqb options key with
  | Some o => v = o
  | None => km_call m attr = Some (Ok v) \/
            ((km_call m attr = None \/ km_call m attr = Some (Err AttributeError)) /\
             v = VArr (Arr s (repeat 0%R (prodn s))))
  end.

(** The option [key] or a default. *)
Definition option_or (options : sdict value) (key : string) (default v : value) : Prop :=
  match dget String.eqb options key with Some o => v = o | None => v = default end.

Definition zeros_of (s : shape) : value := VArr (Arr s (repeat 0%R (prodn s))).

Lemma get_initial_spec m base key options s v : get_initial m base key options s = Ok v ->
  starts_with m options key (replace_x key) (base ++ s)%list v.
Proof.
  unfold get_initial, starts_with, call_attr. destruct (dget _ _ _); [congruence|].
  destruct (km_call m (replace_x key)) as [[w|[]]|]; intros [= <-]; auto.
Qed.

(** Everything a constructed filter starts with, except [d2L_dq2]. *)
Theorem C46_initial m x Px options f : base_init m x Px options = Ok f ->
  let nq := match km_nq m with Some n => n | None => 0 end in
  let nx := km_nx m in
  let base := removelast (vshape (d_x f)) in
  match x with Some v => d_x f = v | None => km_call m "x0" = Some (Ok (d_x f)) end /\
  match Px with Some v => d_Px f = v | None => km_call m "Px0" = Some (Ok (d_Px f)) end /\
  option_or options "k" (VNum 0) (d_k f) /\
  option_or options "L" (VNum 0) (d_L f) /\
  option_or options "dL_dq" (zeros_of (base ++ [nq])%list) (d_dL_dq f) /\
  starts_with m options "dx_dq" "dx0_dq" (base ++ [nq; nx])%list (d_dx_dq f) /\
  starts_with m options "dPx_dq" "dPx0_dq" (base ++ [nq; nx; nx])%list (d_dPx_dq f) /\
  starts_with m options "d2x_dq2" "d2x0_dq2" (base ++ [nq; nq; nx])%list (d_d2x_dq2 f) /\
  starts_with m options "d2Px_dq2" "d2Px0_dq2" (base ++ [nq; nq; nx; nx])%list (d_d2Px_dq2 f).
Proof.
  unfold base_init, bind.
  destruct (match x with Some v => Ok v | None => call_attr m "x0" end) as [x1|] eqn:Ex; [|discriminate].
  destruct (match Px with Some v => Ok v | None => call_attr m "Px0" end) as [P1|] eqn:EP; [|discriminate].
  destruct (get_initial _ _ "dx_dq" _ _) as [v1|] eqn:E1; [|discriminate].
  destruct (get_initial _ _ "dPx_dq" _ _) as [v2|] eqn:E2; [|discriminate].
  destruct (get_initial _ _ "d2x_dq2" _ _) as [v3|] eqn:E3; [|discriminate].
  destruct (get_initial _ _ "d2Px_dq2" _ _) as [v4|] eqn:E4; [|discriminate].
  intros [= <-]; simpl.
  apply get_initial_spec in E1, E2, E3, E4. simpl in E1, E2, E3, E4.
  assert (G : forall key d, option_or options key d (get_or options key d)).
  { intros key d. unfold option_or, get_or. destruct (dget _ _ _); reflexivity. }
  repeat match goal with |- _ /\ _ => split end; auto; try apply G.
  - destruct x as [v|]; [congruence|]. unfold call_attr in Ex. destruct (km_call m "x0"); congruence.
  - destruct Px as [v|]; [congruence|]. unfold call_attr in EP. destruct (km_call m "Px0"); congruence.
Qed.

(** Refuted for [d2L_dq2]: the option of that name has no effect ... *)
Lemma dget_other (d : sdict value) k k' v : k <> k' -> dget String.eqb (dset String.eqb d k v) k' = dget String.eqb d k'.
Proof.
  intros N. rewrite (dget_dset _ String.eqb_spec). destruct (String.eqb_spec k' k); congruence.
Qed.
Theorem C46_d2L_dq2_ignored m x Px options v :
  base_init m x Px (dset String.eqb options "d2L_dq2" v) = base_init m x Px options.
Proof.
  unfold base_init, get_or, get_initial. now rewrite !dget_other by discriminate.
Qed.
(** ... and the Hessian starts as the gradient's option. *)
Theorem C46_d2L_dq2_from_dL_dq m x Px options f : base_init m x Px options = Ok f ->
  option_or options "dL_dq" (zeros_of (removelast (vshape (d_x f)) ++ [match km_nq m with Some n => n | None => 0 end; match km_nq m with Some n => n | None => 0 end])%list) (d_d2L_dq2 f).
Proof.
  unfold base_init, bind.
  destruct (match x with Some v => Ok v | None => call_attr m "x0" end) as [x1|]; [|discriminate].
  destruct (match Px with Some v => Ok v | None => call_attr m "Px0" end); [|discriminate].
  do 4 (destruct (get_initial _ _ _ _ _); [|discriminate]).
  intros [= <-]; simpl. unfold option_or, get_or. destruct (dget _ _ _); reflexivity.
Qed.

(** When construction fails: a missing or failing [x0] or [Px0], or a model
    method that fails otherwise than by an AttributeError. *)
Theorem C46_initial_total m x Px options :
  (x = None -> exists v, km_call m "x0" = Some (Ok v)) ->
  (Px = None -> exists v, km_call m "Px0" = Some (Ok v)) ->
  (forall a e, In a ["dx0_dq"; "dPx0_dq"; "d2x0_dq2"; "d2Px0_dq2"] -> km_call m a = Some (Err e) -> e = AttributeError) ->
  exists f, base_init m x Px options = Ok f.
Proof.
  intros Hx HP Hm. unfold base_init, bind.
  assert (exists x1, match x with Some v => Ok v | None => call_attr m "x0" end = Ok x1) as [x1 ->].
  { destruct x; eauto. destruct Hx as [v E]; auto. exists v. unfold call_attr. now rewrite E. }
  assert (exists x1, match Px with Some v => Ok v | None => call_attr m "Px0" end = Ok x1) as [P1 ->].
  { destruct Px; eauto. destruct HP as [v E]; auto. exists v. unfold call_attr. now rewrite E. }
  assert (G : forall base key s, In (replace_x key) ["dx0_dq"; "dPx0_dq"; "d2x0_dq2"; "d2Px0_dq2"] ->
    exists v, get_initial m base key options s = Ok v).
  { intros base key s I. unfold get_initial, call_attr. destruct (dget _ _ _); eauto.
    destruct (km_call m (replace_x key)) as [[w|e]|] eqn:E; eauto.
    rewrite (Hm _ _ I E). eauto. }
  destruct (G (removelast (vshape x1)) "dx_dq" [match km_nq m with Some n => n | None => 0 end; km_nx m]) as [v1 ->]; [simpl; auto|].
  edestruct (G (removelast (vshape x1)) "dPx_dq") as [v2 ->]; [simpl; auto|].
  edestruct (G (removelast (vshape x1)) "d2x_dq2") as [v3 ->]; [simpl; auto|].
  edestruct (G (removelast (vshape x1)) "d2Px_dq2") as [v4 ->]; [simpl; auto 10|].
  eauto.
Qed.

(** * Transforms *)

(** The option a transform sees as [key]. *)
Definition ut_option (options : sdict value) (prefix key : string) : option value :=
  match dget String.eqb options (prefix ++ key) with
  | Some v => Some v
  | None => dget String.eqb options key
  end.

Definition plain (d : sdict value) : Prop := List.Forall (fun kv => is_word (fst kv)) d /\ NoDup (map fst d).

Lemma ut_options_get options prefix key : plain options -> key <> "" ->
  dget String.eqb (dmerge String.eqb options (extract_subkeys options prefix)) key = ut_option options prefix key.
Proof.
  intros [W N] NE. destruct (C55_word_keys value options prefix W N) as (_ & ND & G).
  rewrite (dget_dmerge _ String.eqb_spec), (dget_rev _ String.eqb_spec), G by auto. reflexivity.
Qed.

(** What the transform made for a prefix is: a function of the prefixed
    options if given, of the plain ones otherwise, else of the defaults. *)
Definition ut_spec (nx : nat) (options : sdict value) (prefix : string) : res ut_object :=
  let kappa := match ut_option options prefix "kappa" with Some v => v | None => VNum 0 end in
  let sqrt := match ut_option options prefix "sqrt" with Some v => v | None => VStr "cholesky" end in
  match (match sqrt with
         | VStr "cholesky" => Some CholeskyUT
         | VStr "svd" => Some SvdUT
         | _ => None end) with
  | None => Err ValueError
  | Some c =>
      match ut_option options prefix "ni", ut_option options prefix "self", kappa with
      | None, None, VNum k =>
          if Req_EM_T (INR nx + k) 0 then Err AssertionError
          else Ok (UTObj c nx k (2 * nx + if Req_EM_T k 0 then 0 else 1))
      | _, _, _ => Err TypeError
      end
  end.

Theorem C46_transform m options prefix : plain options -> make_ut m options prefix = ut_spec (km_nx m) options prefix.
Proof.
  intros P. unfold make_ut, ut_spec, choose_ut_class, ut_new, dmem, get_or, bind.
  rewrite !(ut_options_get options prefix) by (auto; discriminate).
  set (sq := match ut_option options prefix "sqrt" with Some v => v | None => VStr "cholesky" end). clearbody sq.
  assert (E : (match sq with
              | VStr s => if String.eqb s "cholesky" then Ok CholeskyUT else if String.eqb s "svd" then Ok SvdUT else Err ValueError
              | _ => Err ValueError end)
            = match (match sq with VStr "cholesky" => Some CholeskyUT | VStr "svd" => Some SvdUT | _ => None end) with
              | Some c => Ok c | None => Err ValueError end).
  { destruct sq as [|x|s]; try reflexivity.
    destruct (String.eqb_spec s "cholesky") as [->|N1]; [reflexivity|].
    destruct (String.eqb_spec s "svd") as [->|N2]; [reflexivity|].
    match goal with |- _ = match ?t with _ => _ end => enough (t = None) as -> by reflexivity end.
    clear - N1 N2.
    repeat (let c := fresh in destruct s as [|c s]; [reflexivity || congruence|];
      destruct c as [[] [] [] [] [] [] [] []]; try reflexivity); try congruence. }
  rewrite E. destruct (match sq with VStr "cholesky" => _ | _ => _ end) as [c|]; [|reflexivity].
  destruct (ut_option options prefix "ni"); [reflexivity|].
  destruct (ut_option options prefix "self"); [reflexivity|]. simpl.
  destruct (ut_option options prefix "kappa") as [[]|]; reflexivity.
Qed.

Theorem C46_filter m x Px options f pred corr : plain options ->
  ukf_new m x Px options = Ok (f, pred, corr) ->
  base_init m x Px options = Ok f /\
  ut_spec (km_nx m) options "pred_ut_" = Ok pred /\ ut_spec (km_nx m) options "corr_ut_" = Ok corr.
Proof.
  intros P. unfold ukf_new. rewrite !C46_transform by auto. unfold bind.
  destruct (base_init m x Px options) as [f0|]; [|discriminate].
  destruct (ut_spec _ _ "corr_ut_"); [|discriminate]. destruct (ut_spec _ _ "pred_ut_"); [|discriminate].
  now intros [= <- <- <-].
Qed.

(** Two filters whose options differ only in the other transform's settings
    use the same transform. *)
Theorem C46_separate m options key v : plain options -> plain (dset String.eqb options ("corr_ut_" ++ key) v) -> key <> "" ->
  make_ut m (dset String.eqb options ("corr_ut_" ++ key) v) "pred_ut_" = make_ut m options "pred_ut_".
Proof.
  intros P P' NE. rewrite !C46_transform by auto. unfold ut_spec, ut_option.
  assert (G : forall k, "corr_ut_" ++ key <> k -> dget String.eqb (dset String.eqb options ("corr_ut_" ++ key) v) k = dget String.eqb options k).
  { intros k. apply dget_other. }
  rewrite !G by (simpl; discriminate). reflexivity.
Qed.

(** * A concrete case *)
Definition ex_model : kmodel := KModel 2 (Some 1) (fun a => if String.eqb a "x0" then Some (Ok (zeros_of [2])) else None).
Definition ex_options : sdict value := [("kappa", VNum 1); ("pred_ut_sqrt", VStr "svd"); ("corr_ut_kappa", VNum 2); ("dL_dq", zeros_of [1]); ("d2L_dq2", zeros_of [1; 1])].
Example C46_nonvacuous : plain ex_options /\
  exists f, ukf_new ex_model None (Some (zeros_of [2; 2])) ex_options = Ok (f, UTObj SvdUT 2 1 5, UTObj CholeskyUT 2 2 5) /\
  d_d2L_dq2 f = zeros_of [1] /\ d_dx_dq f = zeros_of [1; 2].
Proof.
  split.
  - split; [repeat constructor|]. simpl. repeat constructor; simpl; intuition discriminate.
  - unfold ukf_new, make_ut, ut_new, get_or; simpl. unfold get_or; simpl.
    repeat (destruct Req_EM_T; [lra|]; simpl). eexists. split; [reflexivity|split; reflexivity].
Qed.
