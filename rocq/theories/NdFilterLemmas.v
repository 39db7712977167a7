(** The filters and their loops on stacks do on every element what [KalModel]
    says. *)
From Coq Require Import String Ascii.
From Verif Require Import Py.
From mathcomp Require Import all_ssreflect all_algebra.
From Verif Require Import KalModel KalDiffModel NpModel NpLemmas NdKalModel NpOps NdCholLemmas NdTransLemmas.
Set Implicit Arguments.
Unset Strict Implicit.
Unset Printing Implicit Defensive.
Import Order.TTheory GRing.Theory Num.Theory.
Local Open Scope ring_scope.

(** * Sums *)

Section Sums.
Variable F : rcfType.

Lemma mul2 m n p (A : 'M[F]_(m, n)) (B : 'M[F]_(n, p)) i j : \sum_k A i k * B k j = (A *m B) i j.
Proof. by rewrite mxE. Qed.
Lemma mul2r m n p (A : 'M[F]_(m, n)) (B : 'M[F]_(p, n)) i j : \sum_k A i k * B j k = (A *m B^T) i j.
Proof. by rewrite mxE; apply: eq_bigr => k _; rewrite mxE. Qed.
Lemma mul2l m n p (A : 'M[F]_(n, m)) (B : 'M[F]_(n, p)) i j : \sum_k A k i * B k j = (A^T *m B) i j.
Proof. by rewrite mxE; apply: eq_bigr => k _; rewrite mxE. Qed.
Lemma mulv m n (A : 'M[F]_(m, n)) (x : 'rV[F]_n) i : \sum_k A i k * x 0 k = (x *m A^T) 0 i.
Proof. by rewrite mxE; apply: eq_bigr => k _; rewrite mxE mulrC. Qed.
Lemma mul3 m n p q (A : 'M[F]_(m, n)) (B : 'M[F]_(n, p)) (C : 'M[F]_(p, q)) i j :
  \sum_k \sum_l A i k * B k l * C l j = (A *m B *m C) i j.
Proof. by rewrite exchange_big mxE; apply: eq_bigr => l _; rewrite mxE big_distrl. Qed.
Lemma mul3r m n p q (A : 'M[F]_(m, n)) (B : 'M[F]_(n, p)) (C : 'M[F]_(q, p)) i j :
  \sum_k \sum_l A i k * B k l * C j l = (A *m B *m C^T) i j.
Proof. by rewrite -mul3; apply: eq_bigr => k _; apply: eq_bigr => l _; rewrite [C^T _ _]mxE. Qed.
Lemma mul3t m n p q (A : 'M[F]_(m, n)) (B : 'M[F]_(n, p)) (C : 'M[F]_(q, p)) i j :
  \sum_k \sum_l A i k * C j l * B k l = (A *m B *m C^T) i j.
Proof. by rewrite -mul3r; apply: eq_bigr => k _; apply: eq_bigr => l _; rewrite mulrAC. Qed.
Lemma mul3tt m n p q (A : 'M[F]_(m, n)) (B : 'M[F]_(p, n)) (C : 'M[F]_(q, p)) i j :
  \sum_k \sum_l A i k * C j l * B l k = (A *m B^T *m C^T) i j.
Proof. by rewrite -mul3t; apply: eq_bigr => k _; apply: eq_bigr => l _; rewrite [B^T _ _]mxE. Qed.
End Sums.

(** * Masks *)

Section Mask.
Variable ny : nat.
Variable A : {set 'I_ny}.
Definition bits : seq bool := [seq i \in A | i <- enum 'I_ny].

Lemma size_bits : size bits = ny.
Proof. by rewrite size_map size_enum_ord. Qed.
Lemma nonzero_bits : nonzero bits = [seq val i | i <- enum A].
Proof.
rewrite /nonzero size_bits -val_enum_ord filter_map; congr map.
rewrite {2}/enum_mem -enumT; apply: eq_in_filter => i _ /=.
by rewrite (nth_map i) ?size_enum_ord ?ltn_ord // nth_ord_enum.
Qed.
Lemma size_nonzero : size (nonzero bits) = #|A|.
Proof. by rewrite nonzero_bits size_map -cardE. Qed.
Lemma nth_nonzero (j : 'I_#|A|) : nth 0%N (nonzero bits) j = enum_val j.
Proof.
rewrite nonzero_bits; have Hj : (j < size (enum A))%N by rewrite -cardE.
by rewrite (nth_map (enum_val j)) // /enum_val; congr (nat_of_ord _); apply: set_nth_default.
Qed.
End Mask.

Section Filters.
Variable F : rcfType.
Local Notation nd := (nd F).
Variable b : seq nat.
Variables nx ny : nat.

(** ** Masked arrays *)

Section Masked.
Variable A : {set 'I_ny}.
Notation na := #|A|.
Notation act := (bits A).

Lemma mask_0 b' (X : nd) (t : seq nat -> 'I_ny -> F) : rep (pre := [::]) (cs := [:: ny]) b' X t ->
  exists C, getmask act X = Ok C /\ rep (pre := [::]) (cs := [:: na]) b' C (fun e j => t e (enum_val j)).
Proof.
move=> HX; have [|C [-> [HC G]]] := getmaskE (m := act) (A := X) (s := b'); first by rewrite (proj1 HX) size_bits.
exists C; split=> //; apply: rep0I => [|e He j]; first by rewrite HC size_nonzero.
by cbn [agree]; rewrite G ?(inb_size He) // nth_nonzero; exact: (rep0E HX He (enum_val j)).
Qed.
Lemma mask_0' n (X : nd) (t : seq nat -> 'I_n -> 'I_ny -> F) : rep (pre := [::]) (cs := [:: n; ny]) b X t ->
  exists C, getmask act X = Ok C /\ rep (pre := [::]) (cs := [:: n; na]) b C (fun e i j => t e i (enum_val j)).
Proof.
move=> HX; have [|C [-> [HC G]]] := getmaskE (m := act) (A := X) (s := b ++ [:: n]); first by rewrite (proj1 HX) -catA size_bits.
exists C; split=> //; apply: rep0I => [|e He i j]; first by rewrite HC -catA size_nonzero.
by cbn [agree]; rewrite (catA e [:: nat_of_ord i] [:: nat_of_ord j]) G ?size_cat ?(inb_size He) // -catA nth_nonzero; exact: (rep0E HX He i (enum_val j)).
Qed.
Lemma mask_1 k (X : nd) (t : seq nat -> 'I_k -> 'I_ny -> F) : rep (pre := [:: k]) (cs := [:: ny]) b X t ->
  exists C, getmask act X = Ok C /\ rep (pre := [:: k]) (cs := [:: na]) b C (fun e s j => t e s (enum_val j)).
Proof.
move=> HX; have [|C [-> [HC G]]] := getmaskE (m := act) (A := X) (s := k :: b); first by rewrite (proj1 HX) size_bits.
exists C; split=> //; apply: rep1I => [|e He s j]; first by rewrite HC size_nonzero.
by cbn [agree]; rewrite -cat_cons G /= ?(inb_size He) // nth_nonzero; exact: (rep1E HX He s (enum_val j)).
Qed.
Lemma mask_1' k n (X : nd) (t : seq nat -> 'I_k -> 'I_n -> 'I_ny -> F) : rep (pre := [:: k]) (cs := [:: n; ny]) b X t ->
  exists C, getmask act X = Ok C /\ rep (pre := [:: k]) (cs := [:: n; na]) b C (fun e s i j => t e s i (enum_val j)).
Proof.
move=> HX; have [|C [-> [HC G]]] := getmaskE (m := act) (A := X) (s := k :: b ++ [:: n]); first by rewrite (proj1 HX) /= -catA size_bits.
exists C; split=> //; apply: rep1I => [|e He s i j]; first by rewrite HC /= -catA size_nonzero.
cbn [agree]; rewrite (catA e [:: nat_of_ord i] [:: nat_of_ord j]) -cat_cons G /= ?size_cat ?(inb_size He) // -catA nth_nonzero.
exact: (rep1E HX He s i (enum_val j)).
Qed.
Lemma mask_1'' k n m (X : nd) (t : seq nat -> 'I_k -> 'I_n -> 'I_m -> 'I_ny -> F) : rep (pre := [:: k]) (cs := [:: n; m; ny]) b X t ->
  exists C, getmask act X = Ok C /\ rep (pre := [:: k]) (cs := [:: n; m; na]) b C (fun e s i i' j => t e s i i' (enum_val j)).
Proof.
move=> HX; have [|C [-> [HC G]]] := getmaskE (m := act) (A := X) (s := k :: b ++ [:: n; m]); first by rewrite (proj1 HX) /= -catA size_bits.
exists C; split=> //; apply: rep1I => [|e He s i i' j]; first by rewrite HC /= -catA size_nonzero.
cbn [agree]; rewrite (catA e [:: nat_of_ord i; nat_of_ord i'] [:: nat_of_ord j]) -cat_cons G /= ?size_cat ?(inb_size He) // -catA nth_nonzero.
exact: (rep1E HX He s i i' (enum_val j)).
Qed.

Lemma mask2_0 (X : nd) (t : 'I_ny -> 'I_ny -> F) : rep (pre := [::]) (cs := [:: ny; ny]) [::] X (fun=> t) ->
  exists C, getmask_ix act X = Ok C /\ rep (pre := [::]) (cs := [:: na; na]) [::] C (fun _ i j => t (enum_val i) (enum_val j)).
Proof.
move=> HX; have [|C [-> [HC G]]] := getmask_ixE (m := act) (A := X); first by rewrite (proj1 HX) size_bits.
exists C; split=> //; apply: rep0I => [|e He i j]; first by rewrite HC size_nonzero.
case: e He => // He; cbn [agree]; rewrite G !nth_nonzero.
exact: (rep0E HX (e := [::]) isT (enum_val i) (enum_val j)).
Qed.
Lemma mask2_1 q (X : nd) (t : 'I_q -> 'I_ny -> 'I_ny -> F) : rep (pre := [::]) (cs := [:: q; ny; ny]) [::] X (fun=> t) ->
  exists C, getmask2 act X = Ok C /\ rep (pre := [::]) (cs := [:: q; na; na]) [::] C (fun _ a i j => t a (enum_val i) (enum_val j)).
Proof.
move=> HX; have [|C [-> [HC G]]] := getmask2E (m := act) (A := X) (s := [:: q]); first by rewrite (proj1 HX) size_bits.
exists C; split=> //; apply: rep0I => [|e He a i j]; first by rewrite HC size_nonzero.
case: e He => // He; cbn [agree]; rewrite (G [:: nat_of_ord a]) // !nth_nonzero.
exact: (rep0E HX (e := [::]) isT a (enum_val i) (enum_val j)).
Qed.
Lemma mask2_2 q r (X : nd) (t : 'I_q -> 'I_r -> 'I_ny -> 'I_ny -> F) : rep (pre := [::]) (cs := [:: q; r; ny; ny]) [::] X (fun=> t) ->
  exists C, getmask2 act X = Ok C /\ rep (pre := [::]) (cs := [:: q; r; na; na]) [::] C (fun _ a c i j => t a c (enum_val i) (enum_val j)).
Proof.
move=> HX; have [|C [-> [HC G]]] := getmask2E (m := act) (A := X) (s := [:: q; r]); first by rewrite (proj1 HX) size_bits.
exists C; split=> //; apply: rep0I => [|e He a c i j]; first by rewrite HC size_nonzero.
case: e He => // He; cbn [agree]; rewrite (G [:: nat_of_ord a; nat_of_ord c]) // !nth_nonzero.
exact: (rep0E HX (e := [::]) isT a c (enum_val i) (enum_val j)).
Qed.
End Masked.

(** ** Models and measurements *)

(** A vectorised function of the state, applied to states on the stack and to
    sigma points. *)
Definition vecf (cs : seq nat) (f : nd -> nd) (g : seq nat -> 'rV[F]_nx -> arr F cs) : Prop :=
  (forall X (x : seq nat -> 'rV[F]_nx), rV b nx X x -> rep (pre := [::]) (cs := cs) b (f X) (fun e => g e (x e))) /\
  (forall k X (XM : seq nat -> 'M[F]_(k, nx)), rS b k nx X XM ->
     rep (pre := [:: k]) (cs := cs) b (f X) (fun e s => g e (row s (XM e)))).

Record rmodel (md : nmodel F) (mm : seq nat -> model F nx ny) : Prop := RModel {
  rm_f : forall k, vecf (cs := [:: nx]) (nm_f md k) (fun e x j => md_f (mm e) k x 0 j);
  rm_df_dx : forall k, vecf (cs := [:: nx; nx]) (nm_df_dx md k) (fun e x i j => md_df_dx (mm e) k x i j);
  rm_Q : forall k, vecf (cs := [:: nx; nx]) (nm_Q md k) (fun e x i j => md_Q (mm e) k x i j);
  rm_h : forall k, vecf (cs := [:: ny]) (nm_h md k) (fun e x j => md_h (mm e) k x 0 j);
  rm_dh_dx : forall k, vecf (cs := [:: nx; ny]) (nm_dh_dx md k) (fun e x i j => md_dh_dx (mm e) k x i j);
  rm_R : exists2 R, rM [::] ny ny (nm_R md) (fun=> (R : 'M[F]_ny)) & forall e, inb b e -> md_R (mm e) = R }.

Definition rmeas (y : nmeas F) (ym : meas F ny) : Prop :=
  rV [::] ny (nm_data y) (fun=> y_data ym) /\ nm_mask y = bits (y_mask ym).

Lemma active_bits y ym : rmeas y ym -> nd_active y = bits (active ym).
Proof.
case=> _ E; rewrite /nd_active E /bits -map_comp; apply: eq_map => i /=.
by rewrite /active inE.
Qed.
Lemma all_masked y ym : rmeas y ym -> all id (nm_mask y) = (active ym == set0).
Proof.
case=> _ ->; rewrite /active -subset0; apply/allP/subsetP.
- by move=> H i; rewrite !inE => /negP[]; apply: (H (i \in y_mask ym)); apply/mapP; exists i; rewrite // mem_enum.
- move=> H v /mapP[i _ ->] /=; apply/negPn/negP => Hi.
  by have := H i; rewrite !inE Hi => /(_ isT).
Qed.

(** ** States *)

Definition rstate (s : nstate F) (m : seq nat -> fstate F nx) : Prop :=
  [/\ forall e, inb b e -> fs_k (m e) = ns_k s,
      rV b nx (ns_x s) (fun e => fs_x (m e)) & rM b nx nx (ns_P s) (fun e => fs_P (m e))].

Variables (md : nmodel F) (mm : seq nat -> model F nx ny).
Hypothesis Hmd : rmodel md mm.

(** ** Prediction of the unscented filter *)

Lemma vec_of cs f (g : seq nat -> 'rV[F]_nx -> arr F cs) kappa : vecf f g -> vec b kappa (ni := nx) (fun X => Ok (f X)) g.
Proof. by case=> _ H X XM HX; eexists; split; [reflexivity|exact: H]. Qed.

Lemma vec_ext kappa cs f (g g' : seq nat -> 'rV[F]_nx -> arr F cs) :
  vec b kappa (ni := nx) f g -> (forall e, inb b e -> forall x, g e x = g' e x) ->
  vec b kappa (ni := nx) f g'.
Proof.
move=> H E X XM HX; have [Y [-> HY]] := H X XM HX; exists Y; split=> //.
by apply: (rep_ext HY) => e He s; rewrite E //; apply: eqarr_refl.
Qed.

Definition predict_u (kappa : F) sq (m : model F nx ny) (s : fstate F nx) : res (ut_data nx kappa nx * fstate F nx) :=
  let* u := transform kappa sq (fs_x s) (fs_P s) (md_f m (fs_k s)) in
  Ok (u, FS (fs_k s).+1 (u_o u) (u_Po u + md_Q m (fs_k s) (fs_x s))).

Definition rpair T1 T2 M1 M2 (R1 : T1 -> (seq nat -> M1) -> Prop) (R2 : T2 -> (seq nat -> M2) -> Prop)
    (p : T1 * T2) (m : seq nat -> M1 * M2) : Prop := R1 p.1 (fun e => (m e).1) /\ R2 p.2 (fun e => (m e).2).

Lemma nd_ukf_predict_sim kappa nsq sq s st : lifts b nsq sq -> rstate s st ->
  sim b (rpair (@rut F b nx kappa nx) rstate) (nd_ukf_predict nx md kappa nsq s)
    (fun e => predict_u kappa (sq e) (mm e) (st e)).
Proof.
move=> Hsq [Hk Hx HP]; rewrite /nd_ukf_predict /predict_u.
have Hf : vec b kappa (ni := nx) (cs := [:: nx]) (fun X => Ok (nm_f md (ns_k s) X)) (fun e x j => md_f (mm e) (ns_k s) x 0 j).
  exact: vec_of (rm_f Hmd _).
apply: (sim_ext (m := fun e => let* u := transform kappa (sq e) (fs_x (st e)) (fs_P (st e)) (md_f (mm e) (ns_k s)) in
  Ok (u, FS (ns_k s).+1 (u_o u) (u_Po u + md_Q (mm e) (ns_k s) (fs_x (st e)))))); last by move=> e He; rewrite Hk.
apply: (sim_bind (nd_transform_sim Hsq Hx HP Hf)) => u um Hu _.
have [_ _ _ Ho HPo] := Hu.
have HQ := proj1 (rm_Q Hmd (ns_k s)) _ _ Hx.
obind P HP2 (fun P => rM b nx nx P (fun e => u_Po (um e) + md_Q (mm e) (ns_k s) (fs_x (st e)))).
  by ewise; rewrite [RHS]mxE.
apply: sim_ok => //; split=> //; split=> // e He /=.
Qed.

(** ** Correction *)

Section Correct.
Variables (y : nmeas F) (ym : meas F ny).
Hypothesis Hy : rmeas y ym.
Notation A := (active ym).
Notation na := #|A|.
Variable s : nstate F.
Variable st : seq nat -> fstate F nx.
Hypothesis Hs : rstate s st.

Lemma nd_corrected_ok (E K Py : nd) (e' : seq nat -> 'rV[F]_na) (K' : seq nat -> 'M[F]_(nx, na)) (Py' : seq nat -> 'M[F]_na) :
  rV b na E e' -> rM b nx na K K' -> rM b na na Py Py' ->
  exists s', nd_corrected s E K Py = Ok s' /\ rstate s' (fun e => corrected (st e) (e' e) (K' e) (Py' e)).
Proof.
move=> HE HK HPy; have [Hk Hx HP] := Hs; rewrite /nd_corrected.
obind D HD (fun D => rV b nx D (fun e => e' e *m (K' e)^T)).
  ein "ij"%string [:: nx; na] [:: true; true].
  by gets; rewrite mulv.
obind X HX (fun D => rV b nx D (fun e => fs_x (st e) + e' e *m (K' e)^T)).
  by ewise; rewrite [RHS]mxE.
obind D2 HD2 (fun D => rM b nx nx D (fun e => K' e *m Py' e *m (K' e)^T)).
  ein "ijkl"%string [:: nx; nx; na; na] [:: true; true; true].
  by gets; rewrite mul3t.
obind P HP2 (fun D => rM b nx nx D (fun e => fs_P (st e) - K' e *m Py' e *m (K' e)^T)).
  by ewise; rewrite [RHS]mxE [X in _ = _ + X]mxE.
by eexists; split; first by []; split.
Qed.

Variable kappa : F.
(** [correct0] of KalDiffModel for any square root. *)
Definition correct_u (sq : 'M[F]_nx -> res 'M[F]_nx) (m : model F nx ny) (s : fstate F nx) : res (corr0 nx kappa A) :=
  let* u := transform kappa sq (fs_x s) (fs_P s) (fun x => pick A (md_h m (fs_k s) x)) in
  let Pxh := crosscov u in
  let Py := u_Po u + pick2 A (md_R m) in
  let* PyC := chol Py in
  let* PyCI := inv PyC in
  let PyI := PyCI *m PyCI^T in
  let K := Pxh *m PyI in
  Ok (C0 u (pick A (y_data ym) - u_o u) Pxh Py PyC PyI K).

Definition rcorr (p : nut F * ncorr F) (m : seq nat -> corr0 nx kappa A) : Prop :=
  [/\ rut b p.1 (fun e => c_u (m e)),
      rV b na (nk_e p.2) (fun e => c_e (m e)) /\ rM b nx na (nk_Pxh p.2) (fun e => c_Pxh (m e)),
      rM b na na (nk_Py p.2) (fun e => c_Py (m e)) /\ rM b na na (nk_PyI p.2) (fun e => c_PyI (m e)),
      rM b nx na (nk_K p.2) (fun e => c_K (m e)) &
      exists2 PyC, nk_PyC p.2 = Some PyC & rM b na na PyC (fun e => c_PyC (m e))].

Lemma nd_ukf_correct_sim nsq sq : lifts b nsq sq -> A != set0 ->
  sim b (fun p (m : seq nat -> corr0 nx kappa A) => exists2 c, p.1 = Some c & rcorr c m /\ rstate p.2 (fun e => corr_state (st e) (m e)))
    (nd_ukf_correct nx md kappa nsq s y) (fun e => correct_u (sq e) (mm e) (st e)).
Proof.
move=> Hsq HA; have [Hk Hx HP] := Hs; rewrite /nd_ukf_correct (all_masked Hy) (negbTE HA) (active_bits Hy).
have [yc [-> Hyc]] := mask_0 A (proj1 Hy); cbn [bind].
have [R HR ER] := rm_R Hmd.
have [Rc [-> HRc]] := mask2_0 A HR; cbn [bind].
have Hh : vec b kappa (ni := nx) (cs := [:: na]) (fun X => getmask (bits A) (nm_h md (ns_k s) X))
    (fun e x j => pick A (md_h (mm e) (ns_k s) x) 0 j).
  move=> X XM HX; have [Y [-> HY]] := mask_1 A (proj2 (rm_h Hmd (ns_k s)) _ _ _ HX).
  by exists Y; split=> //; apply: (rep_ext HY) => e He k j; rewrite [RHS]mxE.
pose cu e := let* u := transform kappa (sq e) (fs_x (st e)) (fs_P (st e)) (fun x => pick A (md_h (mm e) (ns_k s) x)) in
  let Pxh := crosscov u in
  let Py := u_Po u + pick2 A R in
  let* PyC := chol Py in
  let* PyCI := inv PyC in
  let PyI := PyCI *m PyCI^T in
  let K := Pxh *m PyI in
  Ok (C0 u (pick A (y_data ym) - u_o u) Pxh Py PyC PyI K).
apply: (sim_ext (m := cu)); last by move=> e He; rewrite /correct_u Hk // ER.
apply: (sim_bind (nd_transform_sim Hsq Hx HP Hh)) => u um Hu _.
have [_ _ _ Ho HPo] := Hu.
have [Pxh [-> HPxh]] := nd_crosscov_ok Hu; cbn [bind].
obind Py HPy (fun P => rM b na na P (fun e => u_Po (um e) + pick2 A R)).
  by ewise; rewrite [RHS]mxE [X in _ = _ + X]mxE.
apply: (sim_bind (nd_chol_sim HPy)) => PyC mPyC HPyC _.
apply: (sim_bind (stacked_sim (@inv F) HPyC)) => PyCI mI HI _.
obind PyI HPyI (fun P => rM b na na P (fun e => mI e *m (mI e)^T)).
  ein "ijk"%string [:: na; na; na] [:: true; true].
  by gets; rewrite mul2r.
obind E HE (fun P => rV b na P (fun e => pick A (y_data ym) - u_o (um e))).
  by ewise; rewrite [RHS]mxE [X in _ = X + _]mxE [X in _ = _ + X]mxE.
obind K HK (fun P => rM b nx na P (fun e => crosscov (um e) *m (mI e *m (mI e)^T))).
  ein "ijk"%string [:: nx; na; na] [:: true; true].
  by gets; rewrite mul2.
have [s' [-> Hs']] := nd_corrected_ok HE HK HPy; cbn [bind].
apply: sim_ok; last by move=> e He; reflexivity.
eexists; first by []; split=> //.
split=> //=; by eexists.
Qed.

Lemma nd_ukf_correct_none nsq : A == set0 -> nd_ukf_correct nx md kappa nsq s y = Ok (None, s).
Proof. by move=> HA; rewrite /nd_ukf_correct (all_masked Hy) HA. Qed.
End Correct.

(** ** Filter classes *)

(** The data saved by a correction. *)
Definition rcd (c : option (ncorr F)) (m : seq nat -> option (corr_data F nx ny)) : Prop :=
  match c with
  | None => forall e, inb b e -> m e = None
  | Some d => exists (A : {set 'I_ny}) (e' : seq nat -> 'rV[F]_#|A|) Pxh Py PyI K PyC,
      [/\ forall e, inb b e -> m e = Some (@CD F nx ny A (e' e) (Pxh e) (Py e) (PyI e) (K e) (PyC e)),
          rV b #|A| (nk_e d) e' /\ rM b nx #|A| (nk_Pxh d) Pxh,
          rM b #|A| #|A| (nk_Py d) Py /\ rM b #|A| #|A| (nk_PyI d) PyI,
          rM b nx #|A| (nk_K d) K &
          match nk_PyC d with
          | None => forall e, PyC e = None
          | Some Z => exists2 N, (forall e, PyC e = Some (N e)) & rM b #|A| #|A| Z N
          end]
  end.

Definition rfilter (nf : nfilter F) (fl : seq nat -> filter_class F nx ny) : Prop :=
  (forall s st, rstate s st ->
     sim b (rpair rstate (fun C (M : seq nat -> 'M[F]_nx) => rM b nx nx C M)) (n_predict nf s) (fun e => predict (fl e) (st e))) /\
  (forall s st y ym, rstate s st -> rmeas y ym ->
     sim b (rpair rstate rcd) (n_correct nf s y) (fun e => correct (fl e) (st e) ym)).

Lemma nd_ukf_rfilter kp kc nrp rp nrc rc : lifts b nrp rp -> lifts b nrc rc ->
  rfilter (nd_ukf nx md kp kc nrp nrc) (fun e => ukf (mm e) kp kc (rp e) (rc e)).
Proof.
move=> Hrp Hrc; split=> [s st Hs|s st y ym Hs Hy] /=.
- apply: (sim_ext (m := fun e => let* p := predict_u kp (rp e) (mm e) (st e) in Ok (p.2, crosscov p.1))); last first.
    by move=> e He; rewrite /predict_u /ukf_predict; case: (transform _ _ _ _ _).
  apply: (sim_bind (k' := fun e p => Ok (p.2, crosscov p.1)) (nd_ukf_predict_sim kp Hrp Hs)) => p m [Hu Hs'] _.
  have [C [-> HC]] := nd_crosscov_ok Hu; cbn [bind].
  by exists (fun e => ((m e).2, crosscov (m e).1)); split=> //; split.
- have [HA|HA] := boolP (active ym == set0).
    rewrite (nd_ukf_correct_none Hy _ _ _ HA) /=; apply: (sim_ok (m' := fun e => (st e, None))); first by split.
    by move=> e He; rewrite /ukf_correct HA.
  apply: (sim_ext (m := fun e => let* c := correct_u ym kc (rc e) (mm e) (st e) in
     Ok (corr_state (st e) c, Some (@CD F nx ny (active ym) (c_e c) (c_Pxh c) (c_Py c) (c_PyI c) (c_K c) (Some (c_PyC c)))))); last first.
    move=> e He; rewrite /ukf_correct (negbTE HA) /correct_u; case: (transform _ _ _ _ _) => //= u.
    by case: (chol _) => //= PyC; case: (inv _).
  apply: (sim_bind (k' := fun e c => Ok (corr_state (st e) c, Some (CD (c_e c) (c_Pxh c) (c_Py c) (c_PyI c) (c_K c) (Some (c_PyC c))))) (nd_ukf_correct_sim Hy Hs kc Hrc HA)) => p m [c E [Hc Hs']] _.
  rewrite E /=; exists (fun e => (corr_state (st e) (m e), Some (CD (c_e (m e)) (c_Pxh (m e)) (c_Py (m e)) (c_PyI (m e)) (c_K (m e)) (Some (c_PyC (m e)))))); split=> //; split=> //=.
  have [_ [H1 H2] [H3 H4] H5 [PyC H6 H7]] := Hc.
  exists (active ym), (fun e => c_e (m e)), (fun e => c_Pxh (m e)), (fun e => c_Py (m e)), (fun e => c_PyI (m e)), (fun e => c_K (m e)), (fun e => Some (c_PyC (m e))).
  by split=> //; rewrite H6; exists (fun e => c_PyC (m e)).
Qed.

Lemma nd_ekf_rfilter : rfilter (nd_ekf md) (fun e => ekf (mm e)).
Proof.
split=> [s st [Hk Hx HP]|s st y ym Hs Hy] /=.
- rewrite /nd_ekf_predict /ekf_predict.
  have Hf := proj1 (rm_f Hmd (ns_k s)) _ _ Hx.
  have HJ := proj1 (rm_df_dx Hmd (ns_k s)) _ _ Hx.
  have HQ := proj1 (rm_Q Hmd (ns_k s)) _ _ Hx.
  have E A B C (r : res A) (k : A -> res B) (k' : B -> res C) : (let* y := (let* x := r in k x) in k' y) = let* x := r in let* y := k x in k' y.
    by case: r.
  rewrite E.
  obind Z HZ (fun Z => rM b nx nx Z (fun e => fs_P (st e) *m md_df_dx (mm e) (ns_k s) (fs_x (st e)))).
    ein "yiz"%string [:: nx; nx; nx] [:: true; true].
    by gets; rewrite mul2.
  rewrite E.
  obind Z2 HZ2 (fun Z => rM b nx nx Z (fun e => (md_df_dx (mm e) (ns_k s) (fs_x (st e)))^T *m (fs_P (st e) *m md_df_dx (mm e) (ns_k s) (fs_x (st e))))).
    ein "yiz"%string [:: nx; nx; nx] [:: true; true].
    by gets; rewrite mul2l.
  rewrite E.
  obind Z3 HZ3 (fun Z => rM b nx nx Z (fun e => (md_df_dx (mm e) (ns_k s) (fs_x (st e)))^T *m (fs_P (st e) *m md_df_dx (mm e) (ns_k s) (fs_x (st e)))
      + md_Q (mm e) (ns_k s) (fs_x (st e)))).
    by ewise; rewrite [RHS]mxE.
  apply: (sim_ok (m' := fun e => (FS (ns_k s).+1 (md_f (mm e) (ns_k s) (fs_x (st e))) (_ + _), _))); last by move=> e He; rewrite Hk.
  by split.
- rewrite /nd_ekf_correct /ekf_correct (all_masked Hy) (active_bits Hy).
  have [HA|HA] := boolP (active ym == set0).
    by apply: (sim_ok (m' := fun e => (st e, None))) => //; split.
  have [Hk Hx HP] := Hs.
  have E A B C (r : res A) (k : A -> res B) (k' : B -> res C) : (let* y := (let* x := r in k x) in k' y) = let* x := r in let* y := k x in k' y.
    by case: r.
  have [yc [-> Hyc]] := mask_0 (active ym) (proj1 Hy); cbn [bind].
  have [R HR ER] := rm_R Hmd.
  have [Rc [-> HRc]] := mask2_0 (active ym) HR; cbn [bind].
  have [h [-> Hh]] := mask_0 (active ym) (proj1 (rm_h Hmd (ns_k s)) _ _ Hx); cbn [bind].
  have [dh [-> Hdh]] := mask_0' (active ym) (proj1 (rm_dh_dx Hmd (ns_k s)) _ _ Hx); cbn [bind].
  pose J e := pick (active ym) (md_dh_dx (mm e) (ns_k s) (fs_x (st e))).
  have HJ : rM b nx #|active ym| dh J.
    by apply: (rep_ext Hdh) => e He i j; rewrite [RHS]mxE.
  rewrite E; obind Pxh HPxh (fun Z => rM b nx #|active ym| Z (fun e => fs_P (st e) *m J e)).
    ein "ijz"%string [:: nx; nx; #|active ym|] [:: true; true].
    by gets; rewrite mul2.
  rewrite E; obind Ph HPh (fun Z => rM b #|active ym| #|active ym| Z (fun e => (J e)^T *m (fs_P (st e) *m J e))).
    ein "yiz"%string [:: #|active ym|; nx; #|active ym|] [:: true; true].
    by gets; rewrite mul2l.
  pose Pym e := (J e)^T *m (fs_P (st e) *m J e) + pick2 (active ym) R.
  rewrite E; obind Py HPy (fun Z => rM b #|active ym| #|active ym| Z Pym).
    by ewise; rewrite [RHS]mxE [X in _ = _ + X]mxE.
  rewrite E.
  apply: (sim_ext (m := fun e => let* PyI := inv (Pym e) in
     let K := fs_P (st e) *m J e *m PyI in
     let e' := pick (active ym) (y_data ym) - pick (active ym) (md_h (mm e) (ns_k s) (fs_x (st e))) in
     Ok (corrected (st e) e' K (Pym e), Some (@CD F nx ny (active ym) e' (fs_P (st e) *m J e) (Pym e) PyI K None)))); last first.
    by move=> e He; rewrite Hk // ER.
  apply: (sim_bind (stacked_sim (@inv F) HPy)) => PyI mI HI _.
  rewrite E; obind K HK (fun Z => rM b nx #|active ym| Z (fun e => fs_P (st e) *m J e *m mI e)).
    ein "ijk"%string [:: nx; #|active ym|; #|active ym|] [:: true; true].
    by gets; rewrite mul2.
  pose em e := pick (active ym) (y_data ym) - pick (active ym) (md_h (mm e) (ns_k s) (fs_x (st e))).
  rewrite E; obind En HE (fun Z => rV b #|active ym| Z em).
    by ewise; rewrite [RHS]mxE [X in _ = X + _]mxE [X in _ = _ + X]mxE [X in _ = _ - X]mxE.
  rewrite E; have [s' [-> Hs']] := nd_corrected_ok Hs HE HK HPy; cbn [bind].
  apply: sim_ok; last by move=> e He; reflexivity.
  split=> //=.
  by exists (active ym), em, (fun e => fs_P (st e) *m J e), Pym, mI, (fun e => fs_P (st e) *m J e *m mI e), (fun=> None).
Qed.
End Filters.
