(** The problems built by col.py, oc.py, oem.py and jme.py, as histories of
    builder calls; their variables and selectors. *)
From Coq Require Import String List ZArith Bool Arith Lia.
From Verif Require Import Py NdArray OptimModel ColModel DictLemmas Builder BuilderLemmas NdLemmas OptimSpec OptimLaws
  LawFacts LayoutLemmas ProblemSpec ProblemLemmas ProblemFacts.
Import ListNotations.
Local Open Scope string_scope.
Local Open Scope list_scope.
Local Open Scope nat_scope.

Section ColBuild.
  Context {T : Type} {NT : Num T} {OT : NumOrd T}.
  Variable m : colmodel T.
  Variable t : list T.
  Notation n := (col_n (m_col m)).

  (** *** Specification: sizes of the discretisation *)
  Definition npieces : nat := length t - 1.
  Definition npoints : nat := npieces * (n - 1) + 1.

  (** At least one piece, increasing times, at least two nodes per piece. *)
  Record good_grid : Prop := {
    gg_n : 2 <= n;
    gg_points : length (col_points (m_col m)) = n;
    gg_t : 2 <= length t;
    gg_inc : List.Forall (fun h => nltb n0 h = true) (diff t)
  }.

  Lemma diff_length (l : list T) : length (diff l) = length l - 1.
  Proof. induction l as [|a [|b l] IH]; auto. cbn [diff length] in *. lia. Qed.

  Lemma removelast_length {X} (l : list X) : length (removelast l) = length l - 1.
  Proof. induction l as [|a [|b l] IH]; auto. cbn [removelast length] in *. lia. Qed.

  Lemma concat_const_length {X} (k : nat) (l : list (list X)) :
    (forall r, In r l -> length r = k) -> length (concat l) = length l * k.
  Proof.
    induction l as [|r l IH]; auto. intros H. cbn [concat length]. rewrite app_length, IH by (intros; apply H; simpl; auto).
    rewrite (H r) by (simpl; auto). reflexivity.
  Qed.

  Lemma grid_ok : good_grid -> exists tc, grid (m_col m) t = Ok tc /\ length tc = npoints.
  Proof.
    intros [H1 H2 H3 _]. unfold grid. destruct t as [|t0 t'] eqn:E; [simpl in H3; lia|]. rewrite <- E in *.
    eexists. split; [reflexivity|]. rewrite app_length, (concat_const_length (n - 1)).
    - rewrite map_length, combine_length, removelast_length, diff_length. unfold npoints, npieces. simpl. lia.
    - intros r Hr. apply in_map_iff in Hr as (tl & <- & _). rewrite map_length, removelast_length. lia.
  Qed.

  Notation K := npieces.
  Notation N := npoints.
  Definition xdec : comp := Comp [N; m_nx m] 0.

  Definition x_ops : list (op T) :=
    [AddDecision "x" [N; m_nx m]; AddDependent "xp" (piece_spec (dec_spec xdec) K n)].
  Definition wc_shape : shape := [K; n - 1; m_nw m].
  Definition col_ops (jme : bool) : list (op T) :=
    x_ops ++ (if jme then [AddDecision "wc" wc_shape] else []) ++ [AddConstraint (m_e m) [K; n - 1; m_nx m] None].
  Definition piece_len : arr T := Arr [K] (diff t).

  Lemma col_problem_ok jme tc : good_grid -> grid (m_col m) t = Ok tc -> length tc = N ->
    col_problem m jme t
    = Ok (ColProblem (with_extra (history (col_ops jme)) [("piece_len", piece_len)]) K tc N xdec).
  Proof.
    intros [H1 H2 H3 H4] E EN. unfold col_problem.
    destruct (Nat.ltb_spec n 2); [lia|].
    replace (forallb (fun h => nltb n0 h) (diff t)) with true.
    2: { symmetry. apply forallb_forall. now apply List.Forall_forall. }
    cbn [passert bind]. rewrite E. cbn [bind]. rewrite EN, diff_length. fold K. destruct jme; reflexivity.
  Qed.

  (** *** Optimal control *)
  Definition udec : comp := Comp [N; m_nu m] (0 + csize xdec)%Z.
  Definition oc_ops : list (op T) :=
    col_ops false ++
    [AddDecision "u" [N; m_nu m]; AddDecision "p" [m_np m];
     AddDependent "up" (piece_spec (dec_spec udec) K n);
     AddDependent "xe" (xe_spec (dec_spec xdec));
     AddObjective (m_IL m) [K] None; AddObjective (m_M m) [] None;
     AddConstraint (m_g m) [N; m_ng m] None; AddConstraint (m_h m) [m_nh m] None].
  Definition oc_prob : problem T := with_extra (history oc_ops) [("piece_len", piece_len)].

  Lemma oc_problem_ok : good_grid -> oc_problem m t = Ok oc_prob.
  Proof.
    intros G. destruct (grid_ok G) as (tc & E & EN). unfold oc_problem. rewrite (col_problem_ok false tc G E EN). reflexivity.
  Qed.

  (** *** Output error and joint MAP estimation *)
  Record good_data (y : list (yrow T)) (uv : arr T) : Prop := {
    gd_y : length y = length t;
    gd_ny : List.Forall (fun r : yrow T => length r = m_ny m) y;
    gd_u : ash uv = [N; m_nu m];
    gd_uwf : awf uv
  }.
  (** The input array: given, or evaluated on the fine grid. *)
  Definition input_values (u : uarg T) : arr T :=
    match u with UArr a => a | UFun f => match grid (m_col m) t with Ok tc => f tc | Err _ => Arr [] [] end end.

  Variable y : list (yrow T).
  Variable uv : arr T.
  Notation KM := (kmeas (m_col m) y).
  Definition y_arr : arr T := Arr [length KM; m_ny m] (concat (map (fun k => map fst (nth k y [])) (kmeas_coarse y))).
  Definition um_arr : arr T := Arr [length KM; m_nu m] (gather (adat uv) (vpos (ash uv) [KM])).
  (** Row k * (n-1) + j of the inputs is row (k, j) of the piece-wise inputs. *)
  Definition up_arr : arr T := Arr [K; n; m_nu m]
    (map (fun i => nth (piece_ind n (prodn [m_nu m]) i) (adat uv) n0) (seq 0 (prodn [K; n; m_nu m]))).

  Definition oem_ops (jme : bool) : list (op T) :=
    col_ops jme ++
    [AddDecision "p" [m_np m]; AddDependent "xm" (xm_spec (dec_spec xdec) KM);
     AddObjective (m_Lmeas m) [length KM] (Some ["y"; "xm"; "um"; "p"])].
  Definition oem_extra : sdict (arr T) :=
    [("y", y_arr); ("um", um_arr); ("u", uv); ("up", up_arr); ("piece_len", piece_len)].
  Definition oem_prob (jme : bool) : problem T := with_extra (history (oem_ops jme)) oem_extra.

  Definition jme_ops : list (op T) :=
    oem_ops true ++ [AddObjective (m_tube_L m) [K] None]
    ++ (if m_use_penalty m then [AddObjective (m_penalty m) [K] None] else []).
  Definition jme_extra : sdict (arr T) := [("penweight", m_penweight m); ("G", m_G m)] ++ oem_extra.
  Definition jme_prob : problem T := with_extra (history jme_ops) jme_extra.

  Lemma kmeas_coarse_In k : In k (kmeas_coarse y) <-> k < length y /\ exists v, In (v, false) (nth k y []).
  Proof.
    unfold kmeas_coarse. rewrite filter_In, in_seq, existsb_exists. split.
    - intros ([_ H1] & [v b] & H2 & H3). destruct b; [discriminate|]. split; [lia|]. eauto.
    - intros (H1 & v & H2). split; [lia|]. exists (v, false). auto.
  Qed.

  Lemma kmeas_lt k : good_grid -> length y = length t -> In k KM -> k < N.
  Proof.
    intros [H1 H2 H3 H4] HY Hk. apply in_map_iff in Hk as (c & <- & Hc). apply kmeas_coarse_In in Hc as [Hc _].
    unfold ninterv, npoints, npieces. nia.
  Qed.

  Lemma kmeas_NoDup : good_grid -> NoDup KM.
  Proof.
    intros G. unfold kmeas. apply NoDup_map_inj.
    - intros a b _ _ E. pose proof (gg_n G). unfold ninterv in E. nia.
    - unfold kmeas_coarse. apply NoDup_filter, seq_NoDup.
  Qed.

  (** An array read as it is. *)
  Definition id_spec (s : shape) : spec T :=
    Spec s (fun v => Ok (Arr s v)) (fun d v => Ok (map (fun xy => nadd (fst xy) (snd xy)) (combine d (adat v)))) (fun i => Ok i).
  Lemma id_lawful s : lawful (prodn s) (id_spec s) (fun i => i).
  Proof.
    constructor; cbn [id_spec s_shape s_unpack s_convert s_add_to]; auto.
    - intros vec HL. do 2 f_equal. rewrite <- HL. clear. symmetry.
      apply nth_ext with (d := n0) (d' := n0); [now rewrite map_length, seq_length|].
      intros i Hi. rewrite map_length, seq_length in Hi. rewrite (nth_map_d _ _ _ O) by now rewrite seq_length.
      now rewrite seq_nth.
    - intros ind HF. f_equal. rewrite <- (map_id ind) at 1. apply map_ext_in. intros i Hi.
      rewrite List.Forall_forall in HF. specialize (HF i Hi). lia.
    - intros dest v HL Es W. eexists. split; [reflexivity|].
      assert (Hv : length (adat v) = prodn s) by (rewrite <- Es; exact W).
      split; [rewrite map_length, combine_length; lia|]. intros d. unfold dotp.
      rewrite map_length, combine_length, HL, Hv, Nat.min_id, <- sumn_add. apply sumn_ext. intros i Hi.
      rewrite combine_map_add_nth by lia. 
      pose proof (num_rt (T := T)) as RT. rewrite (Rdistr_l RT). reflexivity.
  Qed.

  Lemma ravel_inputs_ok : good_grid -> good_data y uv ->
    ravel_inputs (adat uv) N K n (m_nu m) = Ok up_arr.
  Proof.
    intros [H1 H2 H3 H4] [D1 D2 D3 D4].
    pose proof (piece_unpack_lawful (prodn [N; m_nu m]) (id_spec [N; m_nu m]) (fun i => i) K n [m_nu m] (adat uv)
      (id_lawful _)) as P.
    unfold ravel_inputs. unfold piece_unpack, id_spec, piece_shape in P.
    cbn [s_unpack s_shape bind ash adat tl nrows hd] in P. apply P; auto.
    - rewrite <- D3. exact D4.
    - unfold npieces. lia.
  Qed.

  Lemma oem_problem_ok jme u : good_grid -> good_data y uv -> input_values u = uv ->
    oem_problem m jme t y u = Ok (oem_prob jme).
  Proof.
    intros G D EU. destruct (grid_ok G) as (tc & E & EN). unfold oem_problem. rewrite (col_problem_ok jme tc G E EN).
    cbn [bind cp_prob cp_npieces cp_tc cp_npoints cp_x].
    replace (length y =? length t) with true by (symmetry; apply Nat.eqb_eq; apply (gd_y _ _ D)).
    replace (forallb (fun r : list (T * bool) => length r =? m_ny m) y) with true.
    2: { symmetry. apply forallb_forall. intros r Hr. apply Nat.eqb_eq. pose proof (gd_ny _ _ D) as F.
         rewrite List.Forall_forall in F. now apply F. }
    cbn [andb passert bind].
    replace (match u with UArr a => a | UFun f => f tc end) with uv.
    2: { rewrite <- EU. unfold input_values. rewrite E. reflexivity. }
    rewrite (gd_u _ _ D). replace (shape_eqb [N; m_nu m] [N; m_nu m]) with true
      by (cbn; now rewrite !Nat.eqb_refl).
    cbn [passert bind].
    rewrite (proj2 (forallb_forall (fun k => k <? N) KM)).
    2: { intros k Hk. apply Nat.ltb_lt. apply kmeas_lt; auto. apply (gd_y _ _ D). }
    cbn [bind]. rewrite (ravel_inputs_ok G D). cbn [bind].
    unfold oem_prob, oem_extra, um_arr. rewrite (gd_u _ _ D). destruct jme; reflexivity.
  Qed.

  Lemma jme_problem_ok u : good_grid -> good_data y uv -> input_values u = uv ->
    jme_problem m t y u = Ok jme_prob.
  Proof.
    intros G D EU. unfold jme_problem. rewrite (oem_problem_ok true u G D EU). cbn [bind].
    rewrite diff_length. fold K. unfold jme_prob, jme_ops, jme_extra. destruct (m_use_penalty m); reflexivity.
  Qed.
End ColBuild.
