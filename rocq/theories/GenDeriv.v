(** Derivative laws of generated functions: if the base (per element) sparse
    derivatives are derivatives then so are the batched ones. *)
From Coq Require Import String List ZArith Bool Arith Lia Reals Lra.
From Coquelicot Require Import Coquelicot.
From Verif Require Import Py NdArray OptimModel DictLemmas NdLemmas OptimSpec OptimLaws LawFacts LayoutLemmas
  ProblemSpec ProblemFacts DerivSpec CalcLemmas GenModel GenSpec GenLemmas.
Import ListNotations.
Local Open Scope R_scope.

(** *** Specification: laws of the base functions *)

(** Base arguments moved along a direction. *)
Definition bmove (args : list string) (A0 : list (list R)) (D : string -> nat -> R) (t : R) : list (list R) :=
  map (fun wa => vmove (snd wa) (D (fst wa)) t) (combine args A0).

Section BaseLaws.
  Variable g : gfun R.
  Variable W : list string.
  Definition base_jac_law (A0 : list (list R)) : Prop :=
    forall D o, supported W D -> (o < prodn (gf_out g))%nat ->
    is_derive (fun t => nth o (gf_base g (bmove (gf_args g) A0 D t)) 0) 0
      (tsum (jcells (map base_jb (gf_jac g))) (jouts (map base_jb (gf_jac g)))
            (flat_map (fun d => gd_val d A0) (gf_jac g)) (on_cell D) (Z.of_nat o)).
  Definition base_hess_law (A0 : list (list R)) : Prop :=
    forall D E o, supported W D -> supported W E -> (o < prodn (gf_out g))%nat ->
    d2 (fun s t => nth o (gf_base g (bmove (gf_args g) (bmove (gf_args g) A0 E t) D s)) 0)
      (tsum (hcells (map base_hb (gf_hess g))) (houts (map base_hb (gf_hess g)))
            (flat_map (fun d => gd_val d A0) (gf_hess g))
            (sym cell_eqb (on_cell D) (on_cell E)) (Z.of_nat o)).
  Definition base_grad_law (A0 : list (list R)) : Prop :=
    forall D, supported W D ->
    is_derive (fun t => rsum (gf_base g (bmove (gf_args g) A0 D t))) 0
      (rsum (map (fun wf => rsum (map (fun i => nth i (snd wf A0) 0 * D (fst wf) i)
                                      (seq 0 (prodn (base_of g (fst wf)))))) (gf_grad g))).
End BaseLaws.

(** *** Lists *)
Lemma slice_vmove (a : list R) (D : nat -> R) t k n : (k + n <= length a)%nat ->
  firstn n (skipn k (vmove a D t)) = vmove (firstn n (skipn k a)) (fun i => D (k + i)%nat) t.
Proof.
  intros H. apply (list_eq_nth 0).
  - now rewrite vmove_length, !firstn_length, !skipn_length, vmove_length.
  - intros i Hi. rewrite firstn_length, skipn_length, vmove_length in Hi.
    rewrite vmove_nth by (rewrite firstn_length, skipn_length; lia).
    rewrite !nth_firstn_lt, !nth_skipn_add by lia. rewrite vmove_nth by lia. reflexivity.
Qed.

Lemma tsum_nil {C} (cells : list C) vals D q : tsum cells [] vals D q = 0.
Proof. unfold tsum. destruct cells; reflexivity. Qed.

Lemma tsum_flat {X C} (cells : X -> list C) outs vals l D q :
  (forall x, In x l -> length (cells x) = length (outs x) /\ length (outs x) = length (vals x)) ->
  tsum (flat_map cells l) (flat_map outs l) (flat_map vals l) D q
  = rsum (map (fun x => tsum (cells x) (outs x) (vals x) D q) l).
Proof.
  induction l as [|x l IH]; intros H; [reflexivity|]. simpl.
  rewrite tsum_app by (apply H; simpl; auto). rewrite IH by (intros; apply H; simpl; auto). reflexivity.
Qed.

Lemma tsum_batch {C C'} (N osz e q : nat) (cells : list C) (outs : list Z) (phi : nat -> C -> C')
    (vals : nat -> list R) D :
  length cells = length outs -> (forall e', length (vals e') = length outs) ->
  in_range osz outs -> (e < N)%nat -> (q < osz)%nat ->
  tsum (flat_map (fun e' => map (phi e') cells) (seq 0 N))
       (flat_map (fun e' => map (fun o => o + Z.of_nat (e' * osz))%Z outs) (seq 0 N))
       (flat_map vals (seq 0 N)) D (Z.of_nat (e * osz + q))
  = tsum cells outs (vals e) (fun c => D (phi e c)) (Z.of_nat q).
Proof.
  intros H1 H2 HR He Hq. rewrite tsum_flat by (intros; now rewrite !map_length, H2).
  rewrite <- sumn_rsum. rewrite (sumn_single N e); auto.
  - rewrite tsum_shift, tsum_map_cells. f_equal. lia.
  - intros e' He' Hne. apply tsum_none. intros o Ho. apply in_map_iff in Ho as (o' & <- & Ho').
    pose proof (proj1 (Forall_forall _ _) HR o' Ho') as Hr. cbn beta in Hr. intros E.
    assert (Z.to_nat o' + e' * osz = e * osz + q)%nat as E' by lia.
    apply Hne. assert (e' * osz + Z.to_nat o' = e * osz + q)%nat as E'' by lia.
    apply (radix_inj osz) in E''; lia.
Qed.

Lemma map_flat_map {A B C} (f : B -> C) (h : A -> list B) l : map f (flat_map h l) = flat_map (fun a => map f (h a)) l.
Proof. induction l; simpl; auto. now rewrite map_app, IHl. Qed.
Lemma flat_map_nest {A B C} (f : B -> list C) (h : A -> list B) l :
  flat_map f (flat_map h l) = flat_map (fun a => flat_map f (h a)) l.
Proof. induction l; simpl; auto. now rewrite flat_map_app, IHl. Qed.

Section GenLaws.
  Variable g : gfun R.
  Hypothesis WF : gwf g.
  Variables (LE : string -> shape) (ext : shape).

  Lemma move_fit A D t : args_fit g LE ext A -> args_fit g LE ext (move (gf_args g) A D t).
  Proof.
    intros [H1 H2]. split; auto. rewrite (combine_args g WF) in *. unfold move. revert H1.
    generalize (gf_args g) as ws. intros ws. revert A. clear H2.
    induction ws as [|w ws IH]; intros A H; inversion H; subst; cbn [map combine]; constructor; auto.
    cbn [fst snd ash] in *. destruct H2 as [E1 E2]. split; auto. unfold awf in *. cbn [adat ash]. now rewrite vmove_length.
  Qed.

  (** Batch element [e] of the moved arguments. *)
  Definition shift (e : nat) (D : string -> nat -> R) (w : string) (i : nat) : R :=
    D w (at_elem (LE w) ext e * prodn (base_of g w) + i)%nat.

  Lemma shift_supported e W D : supported W D -> supported W (shift e D).
  Proof. intros H w i Hw. apply H; auto. Qed.

  Lemma elems_move A D t e : args_fit g LE ext A -> (e < prodn ext)%nat ->
    elems g LE ext (move (gf_args g) A D t) e = bmove (gf_args g) (elems g LE ext A e) (shift e D) t.
  Proof.
    intros HF He.
    assert (HB : forall w, In w (gf_args g) -> bcasts (LE w) ext) by (intros w; now apply (bcasts_In g LE ext A)).
    destruct HF as [H1 _]. unfold elems, bmove, move. rewrite (combine_args g WF) in *. revert H1 HB.
    generalize (gf_args g) as ws. intros ws. revert A.
    induction ws as [|w ws IH]; intros A H HB; inversion H; subst; cbn [map combine fst snd adat]; auto. f_equal.
    - destruct H2 as [E1 E2]. cbn [fst snd] in *. rewrite slice_vmove; [reflexivity|].
      unfold awf in E2. rewrite E2, E1, prodn_app. specialize (HB w (or_introl eq_refl)).
      pose proof (at_elem_lt _ _ e HB He). nia.
    - apply IH; auto. intros; apply HB; simpl; auto.
  Qed.

  Lemma callv_elem A e q : args_fit g LE ext A -> (e < prodn ext)%nat -> (q < prodn (gf_out g))%nat ->
    nth (e * prodn (gf_out g) + q) (callv (gen_fn g) A) 0 = nth q (gf_base g (elems g LE ext A e)) 0.
  Proof.
    intros HF He Hq. unfold callv. destruct (gen_call g WF LE ext A HF) as [-> _]. cbn [adat].
    rewrite (flat_map_uniform_nth _ _ (prodn (gf_out g)) 0%nat); auto.
    - rewrite seq_nth by auto. reflexivity.
    - intros; apply WF.
    - now rewrite seq_length.
  Qed.

  Theorem gen_calls W A : args_fit g LE ext A -> calls_ok (gen_fn g) W (ext ++ gf_out g) A.
  Proof.
    intros HF D E s t _ _. eexists. apply (gen_call g WF LE ext).
    apply move_fit. now apply move_fit.
  Qed.

  Lemma to_nat_shift i k : (0 <= i)%Z -> Z.to_nat (i + Z.of_nat k) = (k + Z.to_nat i)%nat.
  Proof. lia. Qed.

  Theorem gen_jac_law W A : args_fit g LE ext A ->
    (forall e, (e < prodn ext)%nat -> base_jac_law g W (elems g LE ext A e)) ->
    jac_law (gen_fn g) W (ext ++ gf_out g) A (map (gen_jb g LE ext) (gf_jac g)) (map (gen_val g LE ext A) (gf_jac g)).
  Proof.
    intros HF HL. split; [now apply gen_jac_vals|].
    intros D o HD Ho. rewrite prodn_app in Ho.
    destruct (radix_split _ _ _ Ho) as (e & q & He & Hq & ->).
    apply (is_derive_ext (fun t => nth q (gf_base g (bmove (gf_args g) (elems g LE ext A e) (shift e D) t)) 0)).
    { intros t. cbn [gen_fn f_sig]. rewrite callv_elem by (auto using move_fit). now rewrite elems_move. }
    eapply is_derive_eq; [apply HL; auto using shift_supported|].
    unfold jcells, jouts. rewrite !flat_map_map.
    rewrite !tsum_flat.
    - apply rsum_map_ext. intros d Hd.
      pose proof (proj1 (Forall_forall _ _) (gw_jac _ WF) d Hd) as (w & i & o & E1 & E2 & _ & L1 & L2 & R1 & R2 & V).
      unfold gen_jb, base_jb, nthrow. rewrite E1, E2. cbn [nth jb_w jb_i jb_o gen_val adat].
      rewrite map_flat_map.
      rewrite (flat_map_ext _ (fun e' => map (fun c => (fst c, snd c + Z.of_nat (at_elem (LE w) ext e' * prodn (base_of g w)))%Z)
                 (map (fun i => (w, i)) i))).
      2: { intros e'. now rewrite !map_map. }
      rewrite tsum_batch; auto.
      + apply tsum_ext. intros c Hc. apply in_map_iff in Hc as (z & <- & Hz). unfold on_cell, shift. cbn [fst snd].
        pose proof (proj1 (Forall_forall _ _) R1 z Hz) as Hr. cbn beta in Hr.
        rewrite to_nat_shift by lia. reflexivity.
      + rewrite map_length. congruence.
      + intros. rewrite V. congruence.
    - intros d Hd.
      pose proof (proj1 (Forall_forall _ _) (gw_jac _ WF) d Hd) as (w & i & o & E1 & E2 & _ & L1 & L2 & R1 & R2 & V).
      rewrite (gen_val_length g LE ext A d) by auto. unfold gen_jb, base_jb, nthrow. rewrite E1, E2. cbn [nth jb_w jb_i jb_o].
      rewrite map_length. rewrite !(flat_map_const_length _ (gd_nnz d)) by (intros; now rewrite map_length).
      rewrite seq_length. auto.
    - intros d Hd.
      pose proof (proj1 (Forall_forall _ _) (gw_jac _ WF) d Hd) as (w & i & o & E1 & E2 & _ & L1 & L2 & R1 & R2 & V).
      unfold base_jb, nthrow. rewrite E1, E2. cbn [nth jb_w jb_i jb_o]. rewrite map_length, V. split; congruence.
  Qed.

  Theorem gen_hess_law W A : args_fit g LE ext A ->
    (forall e, (e < prodn ext)%nat -> base_hess_law g W (elems g LE ext A e)) ->
    hess_law (gen_fn g) W (ext ++ gf_out g) A (map (gen_hb g LE ext) (gf_hess g)) (map (gen_val g LE ext A) (gf_hess g)).
  Proof.
    intros HF HL. split; [now apply gen_hess_vals|].
    intros D E o HD HE Ho. rewrite prodn_app in Ho.
    destruct (radix_split _ _ _ Ho) as (e & q & He & Hq & ->).
    apply (d2_ext (fun s t => nth q (gf_base g (bmove (gf_args g)
             (bmove (gf_args g) (elems g LE ext A e) (shift e E) t) (shift e D) s)) 0)).
    { intros s t. cbn [gen_fn f_sig]. rewrite callv_elem by (auto using move_fit).
      rewrite elems_move by (auto using move_fit). rewrite elems_move by auto. reflexivity. }
    match goal with |- d2 _ ?v => match type of (HL e He (shift e D) (shift e E) q (shift_supported _ _ _ HD) (shift_supported _ _ _ HE) Hq) with
      d2 _ ?u => assert (u = v) as <-; [|apply (HL e He); auto using shift_supported] end end.
    unfold hcells, houts. rewrite !flat_map_map.
    rewrite !tsum_flat.
    - apply rsum_map_ext. intros d Hd.
      pose proof (proj1 (Forall_forall _ _) (gw_hess _ WF) d Hd)
        as (a & b & i & j & o & E1 & E2 & _ & _ & L1 & L2 & L3 & R1 & R2 & R3 & V).
      unfold gen_hb, base_hb, nthrow. rewrite E1, E2. cbn [nth hb_a hb_b hb_i hb_j hb_o gen_val adat].
      rewrite !map_flat_map. rewrite combine_flat_map by (intros; rewrite !map_length; congruence).
      set (phi := fun (e' : nat) (cc : (string * Z) * (string * Z)) =>
        ((fst (fst cc), snd (fst cc) + Z.of_nat (at_elem (LE a) ext e' * prodn (base_of g a)))%Z,
         (fst (snd cc), snd (snd cc) + Z.of_nat (at_elem (LE b) ext e' * prodn (base_of g b)))%Z)).
      rewrite (flat_map_ext _ (fun e' => map (phi e') (combine (map (fun i => (a, i)) i) (map (fun j => (b, j)) j)))).
      2: { intros e'. rewrite !map_map. clear. revert j. induction i as [|z i IH]; intros [|y j]; cbn [map combine]; auto.
           f_equal. apply IH. }
      rewrite tsum_batch; auto.
      + apply tsum_ext. intros [[wa za] [wb zb]] Hc.
        pose proof (in_combine_l _ _ _ _ Hc) as Ha. pose proof (in_combine_r _ _ _ _ Hc) as Hb.
        apply in_map_iff in Ha as (z1 & [= <- <-] & Hz1). apply in_map_iff in Hb as (z2 & [= <- <-] & Hz2).
        pose proof (proj1 (Forall_forall _ _) R1 z1 Hz1) as Hr1. pose proof (proj1 (Forall_forall _ _) R2 z2 Hz2) as Hr2.
        cbn beta in Hr1, Hr2. unfold sym, on_cell, shift, cell_eqb, phi. cbn [fst snd].
        rewrite !to_nat_shift by lia.
        destruct (String.eqb_spec a b) as [->|]; [|reflexivity]. cbn [andb].
        destruct (Z.eqb_spec z1 z2) as [->|Hne]; [now rewrite Z.eqb_refl|].
        destruct (Z.eqb_spec (z1 + Z.of_nat (at_elem (LE b) ext e * prodn (base_of g b))) (z2 + Z.of_nat (at_elem (LE b) ext e * prodn (base_of g b)))); [lia|reflexivity].
      + rewrite combine_length, !map_length. lia.
      + intros. rewrite V. congruence.
    - intros d Hd.
      pose proof (proj1 (Forall_forall _ _) (gw_hess _ WF) d Hd)
        as (a & b & i & j & o & E1 & E2 & _ & _ & L1 & L2 & L3 & R1 & R2 & R3 & V).
      rewrite (gen_val_length g LE ext A d) by auto. unfold gen_hb, base_hb, nthrow. rewrite E1, E2. cbn [nth hb_a hb_b hb_i hb_j hb_o].
      rewrite combine_length, !map_length. rewrite !(flat_map_const_length _ (gd_nnz d)) by (intros; now rewrite map_length).
      rewrite seq_length. split; lia.
    - intros d Hd.
      pose proof (proj1 (Forall_forall _ _) (gw_hess _ WF) d Hd)
        as (a & b & i & j & o & E1 & E2 & _ & _ & L1 & L2 & L3 & R1 & R2 & R3 & V).
      unfold base_hb, nthrow. rewrite E1, E2. cbn [nth hb_a hb_b hb_i hb_j hb_o]. rewrite combine_length, !map_length, V. split; lia.
  Qed.

  (** *** Gradients *)
  Definition gdat (A : list (arr R)) (wf : string * (list (list R) -> list R)) : list R :=
    flat_map (fun e => snd wf (elems g LE ext A e)) (seq 0 (prodn ext)).
  (** Sums over the batch elements that read the same entry. *)
  Definition gsum (A : list (arr R)) (wf : string * (list (list R) -> list R)) : arr R :=
    let s := LE (fst wf) ++ base_of g (fst wf) in
    Arr s (map (fun i => lsum (map (fun k => nth (k * prodn s + i) (gdat A wf) 0)
                                   (seq 0 (length (gdat A wf) / prodn s)))) (seq 0 (prodn s))).
  Definition gen_gs (A : list (arr R)) : sdict (arr R) :=
    flat_map (fun wf => if (length (gdat A wf) =? 0)%nat then [] else [(fst wf, gsum A wf)]) (gf_grad g).

  Lemma index_of_nth ws w : In w ws -> exists i, index_of ws w = Some i /\ (i < length ws)%nat /\ nth i ws EmptyString = w.
  Proof.
    induction ws as [|x ws IH]; intros H; [destruct H|]. cbn [index_of].
    destruct (String.eqb_spec w x) as [->|Hne]; [exists O; repeat split; simpl; lia|].
    destruct H as [H|H]; [congruence|]. destruct (IH H) as (i & -> & Hi & E). exists (S i). repeat split; simpl; [lia|auto].
  Qed.

  Lemma gen_grad_ok A : args_fit g LE ext A ->
    (forall wf, In wf (gf_grad g) -> exists pre, ext = pre ++ LE (fst wf)) ->
    gen_grad g A = Ok (gen_gs A).
  Proof.
    intros HF HS. unfold gen_grad, gen_gs.
    destruct (args_fit_split g WF LE ext A HF) as [HLA HA].
    pose proof (gw_grad _ WF) as HG.
    assert (forall acc, foldM (fun ret wg =>
      let* wrt_base := (match index_of (gf_args g) (fst wg) with
                        | Some i => Ok (nth i (gf_bases g) []) | None => Err KeyError end) in
      let* v := batch (gf_bases g) wrt_base (snd wg) A in
      if (length (adat v) =? 0)%nat then Ok ret else
      match index_of (gf_args g) (fst wg) with
      | None => Err KeyError
      | Some i =>
          match nth_error A i with
          | None => Err IndexError
          | Some a => let* s := sum_lead v (ash a) in Ok (ret ++ [(fst wg, s)])
          end
      end) acc (gf_grad g)
      = Ok (acc ++ flat_map (fun wf => if (length (gdat A wf) =? 0)%nat then [] else [(fst wf, gsum A wf)]) (gf_grad g))) as Hgen.
    2: { apply (Hgen []). }
    induction (gf_grad g) as [|wf gs IH]; intros acc; cbn [foldM flat_map]; [now rewrite app_nil_r|].
    inversion HG as [|x y [Hin HV] HG']; subst.
    destruct (index_of_nth _ _ Hin) as (i & Ei & Hi & Ew). rewrite Ei. cbn [bind].
    assert (nth i (gf_bases g) [] = base_of g (fst wf)) as EB.
    { rewrite (bases_eq g WF). rewrite (nth_map_d _ _ _ EmptyString) by auto. now rewrite Ew. }
    rewrite EB, (batch_ok g WF LE ext A) by auto. cbn [bind adat]. fold (gdat A wf).
    destruct (Nat.eqb_spec (length (gdat A wf)) 0) as [E0|E0].
    - cbn [bind]. rewrite IH; auto. intros; apply HS; simpl; auto.
    - rewrite (nth_error_nth' A (Arr [] [])) by lia.
      destruct (HA i ltac:(lia)) as (EA & _ & _). rewrite Ew in EA. rewrite EA.
      assert (length (gdat A wf) = (prodn ext * prodn (base_of g (fst wf)))%nat) as EL.
      { unfold gdat. rewrite (flat_map_const_length _ (prodn (base_of g (fst wf)))) by auto. now rewrite seq_length. }
      destruct (HS wf (or_introl eq_refl)) as [pre Epre].
      unfold sum_lead. cbn [adat].
      assert (prodn (LE (fst wf) ++ base_of g (fst wf)) <> 0)%nat as Hm.
      { rewrite prodn_app. intros E. apply E0. rewrite EL, Epre, prodn_app. nia. }
      destruct (Nat.eqb_spec (prodn (LE (fst wf) ++ base_of g (fst wf))) 0); [contradiction|].
      assert (length (gdat A wf) mod prodn (LE (fst wf) ++ base_of g (fst wf)) = 0)%nat as Hmod.
      { rewrite EL, Epre, !prodn_app, <- Nat.mul_assoc. rewrite <- prodn_app. apply Nat.mod_mul. auto. }
      rewrite Hmod. cbn [Nat.eqb negb bind]. rewrite IH; auto.
      + rewrite <- app_assoc. reflexivity.
      + intros; apply HS; simpl; auto.
  Qed.

  Lemma gdat_nth A wf e i : (forall A, length (snd wf A) = prodn (base_of g (fst wf))) ->
    (e < prodn ext)%nat -> (i < prodn (base_of g (fst wf)))%nat ->
    nth (e * prodn (base_of g (fst wf)) + i) (gdat A wf) 0 = nth i (snd wf (elems g LE ext A e)) 0.
  Proof.
    intros HV He Hi. unfold gdat. rewrite (flat_map_uniform_nth _ _ (prodn (base_of g (fst wf))) 0%nat); auto.
    - now rewrite seq_nth.
    - now rewrite seq_length.
  Qed.

  Lemma mod_radix P sz e i : (i < sz)%nat -> P <> O -> ((e * sz + i) mod (P * sz) = (e mod P) * sz + i)%nat.
  Proof.
    intros Hi HP. symmetry. apply (Nat.mod_unique _ _ (e / P)).
    - pose proof (Nat.mod_upper_bound e P HP). nia.
    - pose proof (Nat.div_mod e P HP). nia.
  Qed.

  (** Accumulating the batch is the adjoint of broadcasting. *)
  Lemma gsum_adjoint A wf pre (D : nat -> R) : ext = pre ++ LE (fst wf) ->
    (forall A, length (snd wf A) = prodn (base_of g (fst wf))) -> length (gdat A wf) <> O ->
    rsum (map (fun i => nth i (adat (gsum A wf)) 0 * D i) (seq 0 (length (adat (gsum A wf)))))
    = rsum (map (fun e => rsum (map (fun i => nth i (snd wf (elems g LE ext A e)) 0
                    * D (at_elem (LE (fst wf)) ext e * prodn (base_of g (fst wf)) + i)%nat)
              (seq 0 (prodn (base_of g (fst wf)))))) (seq 0 (prodn ext))).
  Proof.
    intros HP HV H0.
    set (sz := prodn (base_of g (fst wf))) in *. set (P := prodn (LE (fst wf))). set (Q := prodn pre).
    assert (EL : length (gdat A wf) = (Q * (P * sz))%nat).
    { unfold gdat. rewrite (flat_map_const_length _ sz) by auto. rewrite seq_length, HP, prodn_app. unfold Q, P. lia. }
    assert (Em : prodn (LE (fst wf) ++ base_of g (fst wf)) = (P * sz)%nat) by apply prodn_app.
    assert (HPs : (P * sz <> 0)%nat) by nia.
    unfold gsum. cbn [adat]. rewrite map_length, seq_length, Em, EL. rewrite Nat.div_mul by auto.
    rewrite <- sumn_rsum.
    rewrite (sumn_ext _ _ (fun i => sumn Q (fun k => nth (k * (P * sz) + i) (gdat A wf) 0 * D i))).
    2: { intros i Hi. rewrite nth_map_seq by auto. symmetry.
         etransitivity; [exact (sumn_mul_r Q (D i) (fun k => nth (k * (P * sz) + i) (gdat A wf) 0))|].
         cbn [nmul num_R]. f_equal. rewrite (lsum_map_sumn O), seq_length. apply sumn_ext. intros k Hk. now rewrite seq_nth. }
    rewrite sumn_swap.
    rewrite (sumn_ext Q _ (fun k => sumn (P * sz) (fun i => nth (k * (P * sz) + i) (gdat A wf) 0 * D ((k * (P * sz) + i) mod (P * sz))%nat))).
    2: { intros k Hk. apply sumn_ext. intros i Hi. f_equal. f_equal.
         rewrite Nat.add_comm, Nat.mod_add, Nat.mod_small; auto. }
    rewrite <- (sumn_prod Q (P * sz) (fun p => nth p (gdat A wf) 0 * D (p mod (P * sz))%nat)).
    replace (Q * (P * sz))%nat with (prodn ext * sz)%nat by (rewrite HP, prodn_app; unfold Q, P; lia).
    rewrite sumn_prod, <- sumn_rsum. apply sumn_ext. intros e He. rewrite <- sumn_rsum. apply sumn_ext. intros i Hi.
    pose proof (gdat_nth A wf e i HV He Hi) as G. fold sz in G. rewrite G. f_equal. f_equal.
    rewrite mod_radix by (auto; intros E; apply HPs; rewrite E; reflexivity).
    rewrite HP at 1. rewrite at_elem_suffix; [reflexivity|]. now rewrite <- HP.
  Qed.

  Theorem gen_grad_law W SH A : gf_out g = [] -> args_fit g LE ext A ->
    (forall wf, In wf (gf_grad g) -> In (fst wf) W /\ SH (fst wf) = LE (fst wf) ++ base_of g (fst wf) /\
       exists pre, ext = pre ++ LE (fst wf)) ->
    (forall e, (e < prodn ext)%nat -> base_grad_law g W (elems g LE ext A e)) ->
    grad_law (gen_fn g) W SH A (gen_gs A).
  Proof.
    intros HO HF HW HL. split.
    - split; [cbn [gen_fn f_grad]; apply gen_grad_ok; auto; intros wf Hwf; apply HW; auto|]. split.
      + pose proof (gw_grad_keys _ WF) as ND. unfold gen_gs.
        induction (gf_grad g) as [|wf gs IH]; [constructor|]. cbn [flat_map map] in *. inversion ND; subst.
        destruct (length (gdat A wf) =? 0)%nat; cbn [app map fst]; [apply IH; auto; intros; apply HW; simpl; auto|].
        constructor; [|apply IH; auto; intros; apply HW; simpl; auto].
        intros Hin. apply H1. apply in_map_iff in Hin as ([w v] & E & Hin). cbn [fst] in E. subst.
        apply in_flat_map in Hin as (wf' & Hwf' & Hin). destruct (length (gdat A wf') =? 0)%nat; [destruct Hin|].
        destruct Hin as [[= <- _]|[]]. now apply in_map.
      + apply Forall_forall. intros x Hx. apply in_flat_map in Hx as (wf & Hwf & Hx).
        destruct (length (gdat A wf) =? 0)%nat; [destruct Hx|]. destruct Hx as [<-|[]]. cbn [fst snd gsum ash].
        destruct (HW wf Hwf) as (H1 & H2 & _). split; [auto|]. split; [now rewrite H2|].
        unfold awf. cbn [gsum ash adat]. now rewrite map_length, seq_length.
    - intros D HD.
      apply (is_derive_ext (fun t => rsum (map (fun e => rsum (gf_base g (bmove (gf_args g) (elems g LE ext A e) (shift e D) t))) (seq 0 (prodn ext))))).
      { intros t. cbn [gen_fn f_sig]. unfold callv.
        destruct (gen_call g WF LE ext (move (gf_args g) A D t) (move_fit _ _ _ HF)) as [-> _]. cbn [adat].
        rewrite rsum_flat_map. apply rsum_map_ext. intros e He. apply in_seq in He. rewrite elems_move by (auto; lia). reflexivity. }
      eapply is_derive_eq.
      { apply (is_derive_rsum (fun e t => rsum (gf_base g (bmove (gf_args g) (elems g LE ext A e) (shift e D) t)))
          (fun e => rsum (map (fun wf => rsum (map (fun i => nth i (snd wf (elems g LE ext A e)) 0 * shift e D (fst wf) i)
                                      (seq 0 (prodn (base_of g (fst wf)))))) (gf_grad g)))).
        intros e He. apply in_seq in He. apply HL; [lia|]. now apply shift_supported. }
      rewrite rsum_swap. unfold gen_gs. pose proof (gw_grad _ WF) as HG.
      induction (gf_grad g) as [|wf gs IH]; [reflexivity|]. cbn [map flat_map]. rewrite map_app, rsum_app.
      rewrite <- IH; [|intros; apply HW; simpl; auto|now inversion HG]. change (rsum (?a :: ?l)) with (a + rsum l).
      f_equal. inversion HG as [|x y [Hin HV] HG']; subst.
      destruct (HW wf (or_introl eq_refl)) as (_ & _ & pre & Hpre).
      destruct (Nat.eqb_spec (length (gdat A wf)) 0) as [E0|E0].
      + assert (EL : length (gdat A wf) = (prodn ext * prodn (base_of g (fst wf)))%nat).
        { unfold gdat. rewrite (flat_map_const_length _ (prodn (base_of g (fst wf)))) by auto. now rewrite seq_length. }
        cbn [map]. change (rsum []) with 0. rewrite E0 in EL. symmetry in EL. apply Nat.eq_mul_0 in EL as [E|E].
        * rewrite E. reflexivity.
        * apply rsum_map_zero. intros e _. rewrite E. reflexivity.
      + cbn [map fst snd]. change (rsum [?a]) with (a + 0). rewrite Rplus_0_r. symmetry.
        rewrite (gsum_adjoint A wf pre (D (fst wf)) Hpre HV E0). reflexivity.
  Qed.
End GenLaws.
