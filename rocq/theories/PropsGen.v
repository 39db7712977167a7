(** Properties C18 and C19: functions of generated models (genoptim.py). *)
From Coq Require Import String List ZArith Bool Arith Lia Reals Lra.
From Coquelicot Require Import Coquelicot.
From Verif Require Import Py NdArray OptimModel DictLemmas NdLemmas OptimSpec OptimLaws LawFacts LayoutLemmas
  ProblemSpec ProblemFacts DerivSpec CalcLemmas GenModel GenSpec GenLemmas GenDeriv IndexLemmas.
Import ListNotations.
Local Open Scope R_scope.
Local Open Scope string_scope.
Local Open Scope list_scope.

Lemma at_elem_ravel l ext ix : bcasts l ext -> index_in ext ix ->
  at_elem l ext (ravel ext ix) = ravel l (bcast_index l ix).
Proof.
  intros HB [H1 H2]. unfold at_elem.
  destruct (bpos_ravel _ _ _ (bcasts_compat l ext HB) H1 H2) as [E _]. rewrite E.
  unfold bpad, bcast_index. rewrite H1. apply ravel_pad.
Qed.

Lemma bcast_index_length l ext ix : bcasts l ext -> index_in ext ix -> length (bcast_index l ix) = length l.
Proof.
  intros [H _] [H1 _]. unfold bcast_index. rewrite map_length, combine_length, skipn_length. lia.
Qed.

Lemma bcasts_position l ext (b : shape) ix bx : bcasts l ext -> index_in ext ix ->
  ravel (l ++ b) (bcast_index l ix ++ bx) = (at_elem l ext (ravel ext ix) * prodn b + ravel b bx)%nat.
Proof.
  intros HB HI. rewrite ravel_app by (eapply bcast_index_length; eauto). now rewrite (at_elem_ravel l ext).
Qed.

Lemma batch_row (n m e k : nat) (base : list Z) (off : nat -> nat) :
  length base = m -> (e < n)%nat -> (k < m)%nat ->
  nth (e * m + k) (flat_map (fun e => map (fun i => i + Z.of_nat (off e))%Z base) (seq 0 n)) 0%Z
  = (nth k base 0 + Z.of_nat (off e))%Z.
Proof.
  intros HL He Hk. rewrite (flat_map_uniform_nth _ _ m 0%nat); auto.
  - rewrite seq_nth by auto. rewrite (nth_map_d _ _ _ 0%Z) by lia. reflexivity.
  - intros; now rewrite map_length.
  - now rewrite seq_length.
Qed.

(** ** C18: positions of the batched Jacobian *)
(** [ind] is a base index list of a parameter with base shape [b] and leading
    axes [l]; [row] is the corresponding batched index list: for batch element
    [ix] and nonzero [k] it holds the flat position, in the argument of shape
    [l ++ b], of the multi-index made of [ix] broadcast to the argument
    followed by the base multi-index. *)
Definition placed (l b ext : shape) (nnz : nat) (ind row : list Z) : Prop :=
  length row = (prodn ext * nnz)%nat /\
  forall ix k bx, index_in ext ix -> (k < nnz)%nat -> index_in b bx ->
    nth k ind 0%Z = Z.of_nat (ravel b bx) ->
    nth (ravel ext ix * nnz + k) row 0%Z = Z.of_nat (ravel (l ++ b) (bcast_index l ix ++ bx)).

Lemma bcast_index_self ext ix : index_in ext ix -> ravel ext (bcast_index ext ix) = ravel ext ix.
Proof.
  intros HI. rewrite <- (at_elem_ravel ext ext); auto.
  - unfold at_elem. rewrite bpad_same, bpos_same; auto. now apply index_in_lt.
  - split; [lia|]. intros k Hk. left. f_equal. lia.
Qed.

Lemma placed_row l b ext nnz ind : bcasts l ext -> length ind = nnz ->
  placed l b ext nnz ind
    (flat_map (fun e => map (fun i => i + Z.of_nat (at_elem l ext e * prodn b))%Z ind) (seq 0 (prodn ext))).
Proof.
  intros HB HL. split.
  - rewrite (flat_map_const_length _ nnz) by (intros; now rewrite map_length). now rewrite seq_length.
  - intros ix k bx HI Hk Hb E. rewrite (batch_row _ _ _ _ _ (fun e => at_elem l ext e * prodn b)%nat) by (auto using index_in_lt).
    rewrite E, (bcasts_position l ext) by auto. lia.
Qed.

Lemma placed_out (b ext : shape) nnz ind : length ind = nnz ->
  placed ext b ext nnz ind
    (flat_map (fun e => map (fun i => i + Z.of_nat (e * prodn b))%Z ind) (seq 0 (prodn ext))).
Proof.
  intros HL. split.
  - rewrite (flat_map_const_length _ nnz) by (intros; now rewrite map_length). now rewrite seq_length.
  - intros ix k bx HI Hk Hb E. rewrite (batch_row _ _ _ _ _ (fun e => e * prodn b)%nat) by (auto using index_in_lt).
    rewrite E. rewrite ravel_app.
    + rewrite bcast_index_self by auto. lia.
    + destruct HI as [H1 H2]. unfold bcast_index. rewrite map_length, combine_length, skipn_length. lia.
Qed.

Section C18.
  Context (T : Type) (NT : Num T).

  (** The number of entries and their positions, Jacobian. *)
  Theorem C18_jacobian_positions (g : gfun T) LE ext (vs : sdict shape) : gwf g ->
    (forall w, In w (gf_args g) -> bcasts (LE w) ext) ->
    (forall d w, In d (gf_jac g) -> In w (gd_wrt d) -> dget String.eqb vs w = Some (LE w ++ base_of g w)) ->
    f_jac_nnz (gen_fn g) vs (ext ++ gf_out g) = Ok (prodn ext * sum_len (@gd_nnz T) (gf_jac g))%nat /\
    exists rows, f_jac_ind (gen_fn g) vs (ext ++ gf_out g) = Ok rows /\
      Forall2 (fun d kr => exists w i o r_i r_o, gd_wrt d = [w] /\ gd_ind d = [i; o] /\ kr = ([w], [r_i; r_o]) /\
        placed (LE w) (base_of g w) ext (gd_nnz d) i r_i /\
        placed ext (gf_out g) ext (gd_nnz d) o r_o) (gf_jac g) rows.
  Proof.
    intros WF HB Hvs. split.
    - cbn [gen_fn f_jac_nnz]. rewrite sparse_nnz_ok. f_equal. unfold sum_len.
      induction (gf_jac g) as [|d ds IH]; simpl; [lia|]. rewrite IH; [lia|]. intros; eapply Hvs; simpl; eauto.
    - cbn [gen_fn f_jac_ind]. eexists. split.
      + apply (gen_jac_ind g WF LE ext). intros d Hd.
        pose proof (proj1 (Forall_forall _ _) (gw_jac _ WF) d Hd) as (w & i & o & E1 & E2 & K & _).
        unfold base_jb. rewrite E1. cbn [nth jb_w]. split; [apply (Hvs d); auto; rewrite E1; simpl; auto|].
        apply HB, K.
      + assert (forall l, incl l (gf_jac g) -> Forall2 (fun d kr => exists w i o r_i r_o, gd_wrt d = [w] /\ gd_ind d = [i; o] /\ kr = ([w], [r_i; r_o]) /\
          placed (LE w) (base_of g w) ext (gd_nnz d) i r_i /\
          placed ext (gf_out g) ext (gd_nnz d) o r_o) l
          (map (fun d => let b := gen_jb g LE ext d in ([jb_w b], [jb_i b; jb_o b])) l)) as H; [|apply H, incl_refl].
        induction l as [|d l IH]; intros HI; [constructor|]. cbn [map]. constructor; [|apply IH; intros x Hx; apply HI; simpl; auto].
        pose proof (proj1 (Forall_forall _ _) (gw_jac _ WF) d (HI d (or_introl eq_refl))) as (w & i & o & E1 & E2 & K & L1 & L2 & _).
        exists w, i, o. unfold gen_jb, base_jb, nthrow. rewrite E1, E2. cbn [nth jb_w jb_i jb_o].
        do 2 eexists. split; [reflexivity|]. split; [reflexivity|]. split; [reflexivity|].
        split; [apply placed_row; auto; apply HB, K|apply placed_out; auto].
  Qed.

  (** ... and Hessian. *)
  Theorem C18_hessian_positions (g : gfun T) LE ext (vs : sdict shape) : gwf g ->
    (forall w, In w (gf_args g) -> bcasts (LE w) ext) ->
    (forall d w, In d (gf_hess g) -> In w (gd_wrt d) -> dget String.eqb vs w = Some (LE w ++ base_of g w)) ->
    f_hess_nnz (gen_fn g) vs (ext ++ gf_out g) = Ok (prodn ext * sum_len (@gd_nnz T) (gf_hess g))%nat /\
    exists rows, f_hess_ind (gen_fn g) vs (ext ++ gf_out g) = Ok rows /\
      Forall2 (fun d kr => exists a b i j o r_i r_j r_o, gd_wrt d = [a; b] /\ gd_ind d = [i; j; o] /\ kr = ([a; b], [r_i; r_j; r_o]) /\
        placed (LE a) (base_of g a) ext (gd_nnz d) i r_i /\
        placed (LE b) (base_of g b) ext (gd_nnz d) j r_j /\
        placed ext (gf_out g) ext (gd_nnz d) o r_o) (gf_hess g) rows.
  Proof.
    intros WF HB Hvs. split.
    - cbn [gen_fn f_hess_nnz]. rewrite sparse_nnz_ok. f_equal. unfold sum_len.
      induction (gf_hess g) as [|d ds IH]; simpl; [lia|]. rewrite IH; [lia|]. intros; eapply Hvs; simpl; eauto.
    - cbn [gen_fn f_hess_ind]. eexists. split.
      + apply (gen_hess_ind g WF LE ext). intros d Hd w0 Hw.
        pose proof (proj1 (Forall_forall _ _) (gw_hess _ WF) d Hd) as (a & b & i & j & o & E1 & E2 & Ka & Kb & _).
        unfold base_hb in Hw. rewrite E1 in Hw. cbn [nth hb_a hb_b] in Hw.
        split; [apply (Hvs d); auto; rewrite E1; simpl; intuition auto|].
        apply HB. destruct Hw as [->| ->]; [apply Ka|apply Kb].
      + match goal with |- Forall2 ?P _ (map ?f _) =>
          assert (forall l, incl l (gf_hess g) -> Forall2 P l (map f l)) as H; [|apply H, incl_refl] end.
        induction l as [|d l IH]; intros HI; [constructor|]. cbn [map]. constructor; [|apply IH; intros x Hx; apply HI; simpl; auto].
        pose proof (proj1 (Forall_forall _ _) (gw_hess _ WF) d (HI d (or_introl eq_refl))) as (a & b & i & j & o & E1 & E2 & Ka & Kb & L1 & L2 & L3 & _).
        exists a, b, i, j, o. unfold gen_hb, base_hb, nthrow. rewrite E1, E2. cbn [nth hb_a hb_b hb_i hb_j hb_o].
        do 3 eexists. split; [reflexivity|]. split; [reflexivity|]. split; [reflexivity|].
        split; [apply placed_row; auto; apply HB, Ka|]. split; [apply placed_row; auto; apply HB, Kb|apply placed_out; auto].
  Qed.

  (** Element [ix] of the batch of an argument. *)
  Definition slice_at (l b : shape) (ix : list nat) (a : arr T) (s : list T) : Prop :=
    length s = prodn b /\
    forall bx, index_in b bx -> nth (ravel b bx) s n0 = nth (ravel (l ++ b) (bcast_index l ix ++ bx)) (adat a) n0.

  Lemma slice_at_elem l b ext ix (a : arr T) : bcasts l ext -> index_in ext ix -> ash a = l ++ b -> awf a ->
    slice_at l b ix a (firstn (prodn b) (skipn (at_elem l ext (ravel ext ix) * prodn b) (adat a))).
  Proof.
    intros HB HI Ea Wa. unfold awf in Wa. rewrite Ea, prodn_app in Wa.
    pose proof (at_elem_lt l ext (ravel ext ix) HB (index_in_lt _ _ HI)) as Hlt.
    split.
    - rewrite firstn_length, skipn_length. nia.
    - intros bx Hbx. pose proof (index_in_lt _ _ Hbx).
      rewrite nth_firstn_lt, nth_skipn_add by auto. rewrite (bcasts_position l ext) by auto. reflexivity.
  Qed.

  (** Values: the block of batch element [ix] is the base derivative at that
      element's arguments. *)
  Theorem C18_values (g : gfun T) LE ext A : gwf g -> args_fit g LE ext A ->
    forall ds, ds = gf_jac g \/ ds = gf_hess g ->
    exists vals, sparse_val g ds A = Ok vals /\
    Forall2 (fun d kv => fst kv = gd_wrt d /\ ash (snd kv) = ext ++ [gd_nnz d] /\ awf (snd kv) /\
      forall ix k, index_in ext ix -> (k < gd_nnz d)%nat ->
      exists B, Forall2 (fun wba s => slice_at (LE (fst (fst wba))) (snd (fst wba)) ix (snd wba) s)
                  (combine (combine (gf_args g) (gf_bases g)) A) B /\
        nth (ravel ext ix * gd_nnz d + k) (adat (snd kv)) n0 = nth k (gd_val d B) n0) ds vals.
  Proof.
    intros WF HF ds Hds. eexists. split; [apply (sparse_val_ok g WF LE ext); auto|].
    assert (HV : forall d, In d ds -> forall A, length (gd_val d A) = gd_nnz d).
    { intros d Hd. destruct Hds as [->| ->].
      - pose proof (proj1 (Forall_forall _ _) (gw_jac _ WF) d Hd) as (w & i & o & _ & _ & _ & _ & _ & _ & _ & V). exact V.
      - pose proof (proj1 (Forall_forall _ _) (gw_hess _ WF) d Hd) as (a & b & i & j & o & _ & _ & _ & _ & _ & _ & _ & _ & _ & _ & V). exact V. }
    clear Hds. induction ds as [|d ds IH]; [constructor|]. cbn [map]. constructor; [|apply IH; intros; apply HV; simpl; auto].
    cbn [fst snd]. split; [reflexivity|]. split; [reflexivity|]. pose proof (HV d (or_introl eq_refl)) as HVd. split.
    - unfold awf. rewrite gen_val_length by auto. cbn [gen_val ash]. rewrite prodn_app. simpl. lia.
    - intros ix k HI Hk. exists (elems g LE ext A (ravel ext ix)). split.
      + assert (HB : forall w, In w (gf_args g) -> bcasts (LE w) ext) by (intros w; now apply (bcasts_In g LE ext A)).
        destruct HF as [HF _]. unfold elems. rewrite (combine_args g WF) in *.
        revert HF HB. generalize (gf_args g). intros ws. clear - HI. revert A.
        induction ws as [|w ws IH]; intros A HF HB; inversion HF; subst; cbn [map combine]; constructor.
        * cbn [fst snd] in *. destruct H1. apply slice_at_elem; auto. apply HB. simpl; auto.
        * apply IH; auto. intros; apply HB; simpl; auto.
      + cbn [gen_val adat]. rewrite (flat_map_uniform_nth _ _ (gd_nnz d) 0%nat); auto.
        * rewrite seq_nth by (now apply index_in_lt). reflexivity.
        * rewrite seq_length. now apply index_in_lt.
  Qed.
End C18.
Print Assumptions C18_jacobian_positions.
Print Assumptions C18_hessian_positions.
Print Assumptions C18_values.

(** The batched derivatives are the derivatives of the batched function: what
    C10 and C12 need of a registered function. *)
Theorem C18_derivatives (g : gfun R) W LE ext A : gwf g -> args_fit g LE ext A ->
  (forall e, (e < prodn ext)%nat -> base_jac_law g W (elems g LE ext A e)) ->
  (forall e, (e < prodn ext)%nat -> base_hess_law g W (elems g LE ext A e)) ->
  calls_ok (gen_fn g) W (ext ++ gf_out g) A /\
  jac_law (gen_fn g) W (ext ++ gf_out g) A (map (gen_jb g LE ext) (gf_jac g)) (map (gen_val g LE ext A) (gf_jac g)) /\
  hess_law (gen_fn g) W (ext ++ gf_out g) A (map (gen_hb g LE ext) (gf_hess g)) (map (gen_val g LE ext A) (gf_hess g)).
Proof. intros. split; [now apply (gen_calls g ltac:(assumption) LE ext)|]. split; [now apply gen_jac_law|now apply gen_hess_law]. Qed.
Print Assumptions C18_derivatives.

(** ** C19 *)
Lemma sumn_filter n (P : nat -> bool) (f : nat -> R) :
  rsum (map f (filter P (seq 0 n))) = sumn n (fun e => if P e then f e else 0).
Proof.
  rewrite sumn_rsum. induction (seq 0 n) as [|a l IH]; [reflexivity|]. cbn [filter map].
  destruct (P a); cbn [map]; change (rsum (?x :: ?l)) with (x + rsum l); rewrite IH; lra.
Qed.

(** Each returned array has its argument's shape, and each entry is the sum,
    over all batch elements reading that entry, of the base derivative. *)
Theorem C19_gradient_sums (g : gfun R) LE ext A : gwf g -> args_fit g LE ext A ->
  (forall wf, In wf (gf_grad g) -> exists pre, ext = pre ++ LE (fst wf)) ->
  exists gs, f_grad (gen_fn g) A = Ok gs /\
    (forall w v, In (w, v) gs -> exists df, In (w, df) (gf_grad g) /\ ash v = LE w ++ base_of g w /\ awf v /\
      forall p i, (p < prodn (LE w))%nat -> (i < prodn (base_of g w))%nat ->
        nth (p * prodn (base_of g w) + i) (adat v) 0
        = rsum (map (fun e => nth i (df (elems g LE ext A e)) 0)
                    (filter (fun e => at_elem (LE w) ext e =? p)%nat (seq 0 (prodn ext))))) /\
    (forall w df, In (w, df) (gf_grad g) -> prodn ext <> O -> prodn (base_of g w) <> O -> In w (map fst gs)).
Proof.
  intros WF HF HS. exists (gen_gs g LE ext A). split; [cbn [gen_fn f_grad]; now apply gen_grad_ok|]. split.
  - intros w v Hin. apply in_flat_map in Hin as (wf & Hwf & Hin).
    destruct (Nat.eqb_spec (length (gdat g LE ext A wf)) 0) as [E0|E0]; [destruct Hin|]. destruct Hin as [[= <- <-]|[]].
    exists (snd wf). split; [now destruct wf|]. split; [reflexivity|]. split.
    + unfold awf. cbn [gsum ash adat]. now rewrite map_length, seq_length.
    + intros p i Hp Hi. destruct (HS wf Hwf) as [pre HP].
      pose proof (proj1 (Forall_forall _ _) (gw_grad _ WF) wf Hwf) as [_ HV].
      set (sz := prodn (base_of g (fst wf))) in *. set (P := prodn (LE (fst wf))) in *. set (Q := prodn pre).
      assert (EL : length (gdat g LE ext A wf) = (Q * (P * sz))%nat).
      { unfold gdat. rewrite (flat_map_const_length _ sz) by auto. rewrite seq_length, HP, prodn_app. unfold Q, P. lia. }
      assert (Em : prodn (LE (fst wf) ++ base_of g (fst wf)) = (P * sz)%nat) by apply prodn_app.
      unfold gsum. cbn [adat]. rewrite Em, EL. rewrite nth_map_seq by (apply radix_lt; auto). rewrite Nat.div_mul by nia.
      rewrite sumn_filter.
      replace (prodn ext) with (Q * P)%nat by (rewrite HP, prodn_app; reflexivity).
      rewrite (sumn_prod Q P). rewrite (lsum_map_sumn O), seq_length. apply sumn_ext. intros q Hq. rewrite seq_nth by auto.
      cbn [Nat.add]. rewrite (sumn_single P p); auto.
      * replace (q * (P * sz) + (p * sz + i))%nat with ((q * P + p) * sz + i)%nat by lia.
        assert (He : (q * P + p < prodn ext)%nat) by (rewrite HP, prodn_app; apply radix_lt; auto).
        rewrite HP at 2. rewrite at_elem_suffix by (rewrite <- HP; auto). fold P. rewrite radix_mod, Nat.eqb_refl by auto.
        unfold sz. apply (gdat_nth g LE ext A wf); auto.
      * intros r Hr Hne. assert (He : (q * P + r < prodn ext)%nat) by (rewrite HP, prodn_app; apply radix_lt; auto).
        rewrite HP at 1. rewrite at_elem_suffix by (rewrite <- HP; auto). fold P. rewrite radix_mod by auto.
        destruct (Nat.eqb_spec r p); [contradiction|reflexivity].
  - intros w df Hin H1 H2. apply in_map_iff. exists (w, gsum g LE ext A (w, df)). split; [reflexivity|].
    apply in_flat_map. exists (w, df). split; auto. cbn [fst].
    pose proof (proj1 (Forall_forall _ _) (gw_grad _ WF) (w, df) Hin) as [_ HV]. cbn [fst snd] in HV.
    destruct (Nat.eqb_spec (length (gdat g LE ext A (w, df))) 0) as [E|]; [|simpl; auto].
    unfold gdat in E. cbn [snd] in E. rewrite (flat_map_const_length _ (prodn (base_of g w))) in E by auto.
    rewrite seq_length in E. nia.
Qed.
Print Assumptions C19_gradient_sums.

(** The accumulated arrays are the gradient of the sum of the batch values:
    what C11 needs of a registered objective. *)
Theorem C19_gradient_derivative (g : gfun R) W SH LE ext A :
  gwf g -> gf_out g = [] -> args_fit g LE ext A ->
  (forall wf, In wf (gf_grad g) -> In (fst wf) W /\ SH (fst wf) = LE (fst wf) ++ base_of g (fst wf) /\
     exists pre, ext = pre ++ LE (fst wf)) ->
  (forall e, (e < prodn ext)%nat -> base_grad_law g W (elems g LE ext A e)) ->
  exists gs, grad_law (gen_fn g) W SH A gs.
Proof. intros. exists (gen_gs g LE ext A). now apply gen_grad_law. Qed.
Print Assumptions C19_gradient_derivative.

(** *** A concrete generated function: f(a, b) = a b for scalars *)
Definition sc (A : list (list R)) (k : nat) : R := nth 0 (nth k A []) 0.
Definition mulg : gfun R := {|
  gf_name := "mul"; gf_args := ["a"; "b"]; gf_bases := [[]; []]; gf_out := [];
  gf_base := fun A => [sc A 0 * sc A 1];
  gf_grad := [("a", fun A => [sc A 1]); ("b", fun A => [sc A 0])];
  gf_jac := [GD ["a"] 1 [[0%Z]; [0%Z]] (fun A => [sc A 1]); GD ["b"] 1 [[0%Z]; [0%Z]] (fun A => [sc A 0])];
  gf_hess := [GD ["a"; "b"] 1 [[0%Z]; [0%Z]; [0%Z]] (fun _ => [1])];
  gf_base_shapes := [("a", []); ("b", [])]
|}.

Lemma mulg_wf : gwf mulg.
Proof.
  constructor; try reflexivity.
  - repeat constructor; simpl; intuition discriminate.
  - constructor; [|constructor; [|constructor]]; eexists _, _, _; (split; [reflexivity|]); (split; [reflexivity|]);
      (split; [split; simpl; auto|]); repeat split; repeat constructor; simpl; lia.
  - repeat constructor; simpl; intuition discriminate.
  - constructor; [|constructor]; eexists _, _, _, _, _; (split; [reflexivity|]); (split; [reflexivity|]);
      (split; [split; simpl; auto|]); (split; [split; simpl; auto|]); repeat split; repeat constructor; simpl; lia.
  - repeat constructor; simpl; intuition discriminate.
  - repeat constructor; simpl; intuition discriminate.
  - repeat constructor; simpl; intuition discriminate.
Qed.

Lemma mulg_move a b D t : bmove (gf_args mulg) [[a]; [b]] D t = [[a + t * D "a" 0%nat]; [b + t * D "b" 0%nat]].
Proof. reflexivity. Qed.
Lemma mulg_base a b : gf_base mulg [[a]; [b]] = [a * b].
Proof. reflexivity. Qed.

Lemma mulg_jac_law W a b : base_jac_law mulg W [[a]; [b]].
Proof.
  intros D o _ Ho. assert (o = 0%nat) as -> by (simpl in Ho; lia).
  apply (is_derive_ext (fun t => (a + t * D "a" 0%nat) * (b + t * D "b" 0%nat))).
  { intros t. rewrite mulg_move, mulg_base. reflexivity. }
  auto_derive; auto. unfold tsum, on_cell, sc. simpl. unfold sc. simpl. ring.
Qed.
Lemma mulg_grad_law W a b : base_grad_law mulg W [[a]; [b]].
Proof.
  intros D _.
  apply (is_derive_ext (fun t => (a + t * D "a" 0%nat) * (b + t * D "b" 0%nat))).
  { intros t. rewrite mulg_move, mulg_base. simpl. ring. }
  auto_derive; auto. simpl. unfold sc. simpl. ring.
Qed.
Lemma mulg_hess_law W a b : base_hess_law mulg W [[a]; [b]].
Proof.
  intros D E o _ _ Ho. assert (o = 0%nat) as -> by (simpl in Ho; lia).
  apply (d2_ext (fun s t => (a + t * E "a" 0%nat + s * D "a" 0%nat) * (b + t * E "b" 0%nat + s * D "b" 0%nat))).
  { intros s t. rewrite !mulg_move, mulg_base. reflexivity. }
  split.
  - apply filter_forall. intros t. auto_derive. auto.
  - apply (is_derive_ext (fun t => D "a" 0%nat * (b + t * E "b" 0%nat) + (a + t * E "a" 0%nat) * D "b" 0%nat)).
    { intros t. symmetry. apply is_derive_unique. auto_derive; auto. ring. }
    auto_derive; auto. unfold tsum, sym, on_cell, cell_eqb. simpl. ring.
Qed.

(** Three values of a, one shared value of b. *)
Definition ex_le (w : string) : shape := if String.eqb w "a" then [3%nat] else [].
Example C18_nonvacuous x y z b :
  let A := [Arr [3%nat] [x; y; z]; Arr [] [b]] in
  gwf mulg /\ args_fit mulg ex_le [3%nat] A /\
  (forall e, (e < 3)%nat -> base_jac_law mulg ["a"; "b"] (elems mulg ex_le [3%nat] A e)
     /\ base_hess_law mulg ["a"; "b"] (elems mulg ex_le [3%nat] A e)
     /\ base_grad_law mulg ["a"; "b"] (elems mulg ex_le [3%nat] A e)) /\
  (forall wf, In wf (gf_grad mulg) -> exists pre, [3%nat] = pre ++ ex_le (fst wf)) /\
  f_jac_ind (gen_fn mulg) [("a", [3%nat]); ("b", [])] [3%nat]
    = Ok [(["a"], [[0; 1; 2]; [0; 1; 2]]); (["b"], [[0; 0; 0]; [0; 1; 2]])]%Z.
Proof.
  cbv zeta. split; [apply mulg_wf|]. split; [split; [repeat constructor|reflexivity]|]. split; [|split].
  - intros e He. destruct e as [|[|[|e]]]; [| | |lia];
      (split; [apply mulg_jac_law|split; [apply mulg_hess_law|apply mulg_grad_law]]).
  - intros wf [<-|[<-|[]]]; [exists []|exists [3%nat]]; reflexivity.
  - reflexivity.
Qed.

(** The suffix condition is needed: with leading axes (3, 1) in a batch of
    shape (3, 2) the code adds the derivatives of different entries. *)
Definition bad_le (w : string) : shape := if String.eqb w "a" then [3; 1]%nat else [3; 2]%nat.
Definition bad_args : list (arr R) := [Arr [3; 1]%nat [0; 0; 0]; Arr [3; 2]%nat [1; 2; 3; 4; 5; 6]].
Theorem C19_general_broadcast_refuted :
  exists (g : gfun R) LE ext A gs, gwf g /\ gf_out g = [] /\ args_fit g LE ext A /\
    (forall e, (e < prodn ext)%nat -> base_grad_law g (gf_args g) (elems g LE ext A e)) /\
    f_grad (gen_fn g) A = Ok gs /\
    ~ grad_law (gen_fn g) (gf_args g) (fun w => LE w ++ base_of g w) A gs.
Proof.
  exists mulg, bad_le, [3; 2]%nat, bad_args.
  eexists. split; [apply mulg_wf|]. split; [reflexivity|]. split; [split; [repeat constructor|reflexivity]|].
  split.
  { intros e He. destruct e as [|[|[|[|[|[|e]]]]]]; [apply mulg_grad_law..|simpl in He; lia]. }
  split; [reflexivity|]. intros [_ H].
  specialize (H (fun w i => if String.eqb w "a" then if Nat.eqb i 0 then 1 else 0 else 0)).
  assert (supported (gf_args mulg) (fun w i => if String.eqb w "a" then if Nat.eqb i 0 then 1 else 0 else 0)) as HS.
  { intros w i Hw. destruct (String.eqb_spec w "a") as [->|]; [|reflexivity]. exfalso. apply Hw. simpl; auto. }
  specialize (H HS). apply is_derive_unique in H.
  assert (is_derive (fun t => rsum (callv (gen_fn mulg) (move (f_sig (gen_fn mulg)) bad_args
     (fun w i => if String.eqb w "a" then if Nat.eqb i 0 then 1 else 0 else 0) t))) 0 3) as H3.
  { apply (is_derive_ext (fun t => 3 * t)).
    - intros t. unfold callv. simpl. simpl. unfold sc. simpl. ring.
    - auto_derive; auto. ring. }
  apply is_derive_unique in H3. rewrite H in H3. simpl in H3. unfold sc in H3. simpl in H3. lra.
Qed.
Print Assumptions C19_general_broadcast_refuted.
