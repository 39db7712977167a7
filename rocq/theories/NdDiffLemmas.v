(** The derivatives of the unscented filter on stacks of filters. *)
From Coq Require Import String Ascii.
From Verif Require Import Py.
From mathcomp Require Import all_ssreflect all_algebra.
From Verif Require Import KalModel KalDiffModel NpModel NpLemmas NdKalModel NpOps NdCholLemmas NdTransLemmas NdFilterLemmas NdLoopLemmas.
Set Implicit Arguments.
Unset Strict Implicit.
Unset Printing Implicit Defensive.
Import Order.TTheory GRing.Theory Num.Theory.
Local Open Scope ring_scope.

(** Broadcasting along new axes. *)
Section NewAxes.
Variable F : rcfType.
Variable b : seq nat.

Lemma bidx_cat e s t i : inb b e -> size i = (size s + size t)%N -> bidx (b ++ s ++ t) (e ++ i) = e ++ bidx (s ++ t) i.
Proof.
move=> He Hi; rewrite /bidx !size_cat Hi (inb_size He) !subnn !drop0 zip_cat ?(inb_size He) // map_cat.
by congr (_ ++ _); have := bidx_id He; rewrite /bidx (inb_size He) subnn drop0.
Qed.

Lemma bidx1 n (k : 'I_n) : (if n == 1%N then 0%N else nat_of_ord k) = k.
Proof. by case: k => k /=; case: eqP => // ->; case: k. Qed.

Lemma bcast_new z q n : size q = z -> bcast (b ++ q ++ [:: n]) (b ++ nseq z 1%N ++ [:: n]) = Ok (b ++ q ++ [:: n]).
Proof.
move=> Hz; rewrite /bcast !rev_cat /= bdim_same rev_nseq.
have -> : bcast_rev (rev q ++ rev b) (nseq z 1%N ++ rev b) = Ok (rev q ++ rev b).
  have {Hz} : size (rev q) = z by rewrite size_rev.
  elim: (rev q) z => [|m r IH] [|z] //= => [_|[Hz]]; first by have := bcast_rev_pre (rev b) [::]; rewrite cats0.
  by rewrite bdim1r IH.
by rewrite /= rev_cons rev_cat !revK -cats1 -catA.
Qed.

Lemma rep_newaxes1 n (A : nd F) (u : seq nat -> 'I_n -> F) : r1 b n A u ->
  rep (pre := [::]) (cs := [:: 1%N; n]) b (newaxes 1 A) (fun e _ k => u e k).
Proof.
move=> H; have [H1 H2] := newaxesE 1 (proj1 H); apply: rep0I => // e He a k; cbn [agree].
by rewrite (H2 e [:: nat_of_ord a] (nat_of_ord k)) ?(inb_size He) //; exact: (rep0E H He k).
Qed.
Lemma rep_newaxes2 n (A : nd F) (u : seq nat -> 'I_n -> F) : r1 b n A u ->
  rep (pre := [::]) (cs := [:: 1%N; 1%N; n]) b (newaxes 2 A) (fun e _ _ k => u e k).
Proof.
move=> H; have [H1 H2] := newaxesE 2 (proj1 H); apply: rep0I => // e He a c k; cbn [agree].
by rewrite (H2 e [:: nat_of_ord a; nat_of_ord c] (nat_of_ord k)) ?(inb_size He) //; exact: (rep0E H He k).
Qed.

Lemma rep_new1 f q n (A B : nd F) (t : seq nat -> 'I_q -> 'I_n -> F) (u : seq nat -> 'I_n -> F) :
  r2 b q n A t -> rep (pre := [::]) (cs := [:: 1%N; n]) b B (fun e _ k => u e k) ->
  exists C, map2 f A B = Ok C /\ r2 b q n C (fun e a k => f (t e a k) (u e k)).
Proof.
move=> HA HB; rewrite /map2 (proj1 HA) (proj1 HB) /= (@bcast_new 1 [:: q] n erefl) /=; eexists; split; first by [].
apply: rep0I => // e He a k; cbn [agree get].
have Hin : inb [:: q; n] [:: nat_of_ord a; nat_of_ord k] by rewrite /= !ltn_ord.
rewrite (@bidx_cat e [::] [:: q; n]) // bidx_id // (@bidx_cat e [:: 1%N] [:: n]) //=.
have -> : bidx [:: 1%N; n] [:: nat_of_ord a; nat_of_ord k] = [:: nat_of_ord (ord0 : 'I_1); nat_of_ord k].
  by rewrite /bidx /=; congr [:: _; _]; apply: bidx1.
by congr f; [exact: (rep0E HA He a k) | exact: (rep0E HB He ord0 k)].
Qed.
Lemma rep_new2 f q r n (A B : nd F) (t : seq nat -> 'I_q -> 'I_r -> 'I_n -> F) (u : seq nat -> 'I_n -> F) :
  rep (pre := [::]) (cs := [:: q; r; n]) b A t -> rep (pre := [::]) (cs := [:: 1%N; 1%N; n]) b B (fun e _ _ k => u e k) ->
  exists C, map2 f A B = Ok C /\ rep (pre := [::]) (cs := [:: q; r; n]) b C (fun e a c k => f (t e a c k) (u e k)).
Proof.
move=> HA HB; rewrite /map2 (proj1 HA) (proj1 HB) /= (@bcast_new 2 [:: q; r] n erefl) /=; eexists; split; first by [].
apply: rep0I => // e He a c k; cbn [agree get].
have Hin : inb [:: q; r; n] [:: nat_of_ord a; nat_of_ord c; nat_of_ord k] by rewrite /= !ltn_ord.
rewrite (@bidx_cat e [::] [:: q; r; n]) // bidx_id // (@bidx_cat e [:: 1%N; 1%N] [:: n]) //=.
have -> : bidx [:: 1%N; 1%N; n] [:: nat_of_ord a; nat_of_ord c; nat_of_ord k] = [:: nat_of_ord (ord0 : 'I_1); nat_of_ord (ord0 : 'I_1); nat_of_ord k].
  by rewrite /bidx /=; congr [:: _; _; _]; apply: bidx1.
by congr f; [exact: (rep0E HA He a c k) | exact: (rep0E HB He ord0 ord0 k)].
Qed.

(** The diagonals of a stack of matrices. *)
Lemma diag_einsum s n (A : nd F) : shape A = s ++ [:: n; n] ->
  exists C, einsum "...kk->...k" [:: A] = Ok C /\ shape C = s ++ [:: n]
    /\ forall e (k : 'I_n), inb s e -> get C (e ++ [:: nat_of_ord k]) = get A (e ++ [:: nat_of_ord k; nat_of_ord k]).
Proof.
move=> HA.
have H : rep (pre := [::]) (cs := [:: n; n]) s A (fun e i j => get A (e ++ [:: nat_of_ord i; nat_of_ord j])) by apply: rep0I.
have [C [EC HC]] : exists C, einsum "...kk->...k" [:: A] = Ok C /\ r1 s n C (fun e k => get A (e ++ [:: nat_of_ord k; nat_of_ord k])).
  ein "k"%string [:: n] [:: true].
  by [].
exists C; split=> //; split; first exact: (proj1 HC).
by move=> e k He; exact: (rep0E HC He k).
Qed.
Lemma diag_rM1 q n (A : nd F) (M : seq nat -> 'I_q -> 'M[F]_n) : rM1 b q n n A M ->
  exists C, einsum "...kk->...k" [:: A] = Ok C /\ r2 b q n C (fun e a k => M e a k k).
Proof.
move=> H; have HA : shape A = (b ++ [:: q]) ++ [:: n; n] by rewrite -catA; exact: (proj1 H).
have [C [-> [HC G]]] := diag_einsum HA; exists C; split=> //; apply: rep0I; first by rewrite HC -catA.
move=> e He a k; cbn [agree]; rewrite (catA e [:: nat_of_ord a] [:: nat_of_ord k]) G ?inb_cat ?He /= ?ltn_ord // -catA.
exact: (rep0E H He a k k).
Qed.
Lemma diag_rM2 q r n (A : nd F) (M : seq nat -> 'I_q -> 'I_r -> 'M[F]_n) : rM2 b q r n n A M ->
  exists C, einsum "...kk->...k" [:: A] = Ok C /\ rep (pre := [::]) (cs := [:: q; r; n]) b C (fun e a c k => M e a c k k).
Proof.
move=> H; have HA : shape A = (b ++ [:: q; r]) ++ [:: n; n] by rewrite -catA; exact: (proj1 H).
have [C [-> [HC G]]] := diag_einsum HA; exists C; split=> //; apply: rep0I; first by rewrite HC -catA.
move=> e He a c k; cbn [agree]; rewrite (catA e [:: nat_of_ord a; nat_of_ord c] [:: nat_of_ord k]) G ?inb_cat ?He /= ?ltn_ord // -catA.
exact: (rep0E H He a c k k).
Qed.
End NewAxes.

Section Diff.
Variable F : rcfType.
Local Notation nd := (nd F).
Variable b : seq nat.
Variables nx ny nq : nat.
Variable log : F -> F.
Local Notation rstate := (@rstate F b nx).
Local Notation vecf := (@vecf F b nx).

Record rdmodel (dm : ndmodel F) (mm : seq nat -> dmodel F nx ny nq) : Prop := RDModel {
  rd_md : rmodel b (nm_md dm) (fun e => dm_md (mm e));
  rd_df_dq : forall k, vecf (cs := [:: nq; nx]) (nm_df_dq dm k) (fun e x a j => dm_df_dq (mm e) k x a 0 j);
  rd_dQ_dq : forall k, vecf (cs := [:: nq; nx; nx]) (nm_dQ_dq dm k) (fun e x a i j => dm_dQ_dq (mm e) k x a i j);
  rd_dQ_dx : forall k, vecf (cs := [:: nx; nx; nx]) (nm_dQ_dx dm k) (fun e x l i j => dm_dQ_dx (mm e) k x l i j);
  rd_dh_dq : forall k, vecf (cs := [:: nq; ny]) (nm_dh_dq dm k) (fun e x a j => dm_dh_dq (mm e) k x a 0 j);
  rd_dR_dq : exists2 R, rM1 [::] nq ny ny (nm_dR_dq dm) (fun=> (R : 'I_nq -> 'M[F]_ny)) & forall e, inb b e -> forall a, dm_dR_dq (mm e) a = R a;
  rd_d2f_dq2 : forall k, vecf (cs := [:: nq; nq; nx]) (nm_d2f_dq2 dm k) (fun e x a c j => dm_d2f_dq2 (mm e) k x a c 0 j);
  rd_d2f_dx2 : forall k, vecf (cs := [:: nx; nx; nx]) (nm_d2f_dx2 dm k) (fun e x a c j => dm_d2f_dx2 (mm e) k x a c 0 j);
  rd_d2f_dx_dq : forall k, vecf (cs := [:: nq; nx; nx]) (nm_d2f_dx_dq dm k) (fun e x a c j => dm_d2f_dx_dq (mm e) k x a c 0 j);
  rd_d2Q_dq2 : forall k, vecf (cs := [:: nq; nq; nx; nx]) (nm_d2Q_dq2 dm k) (fun e x a c i j => dm_d2Q_dq2 (mm e) k x a c i j);
  rd_d2Q_dx2 : forall k, vecf (cs := [:: nx; nx; nx; nx]) (nm_d2Q_dx2 dm k) (fun e x a c i j => dm_d2Q_dx2 (mm e) k x a c i j);
  rd_d2Q_dx_dq : forall k, vecf (cs := [:: nq; nx; nx; nx]) (nm_d2Q_dx_dq dm k) (fun e x a c i j => dm_d2Q_dx_dq (mm e) k x a c i j);
  rd_d2h_dq2 : forall k, vecf (cs := [:: nq; nq; ny]) (nm_d2h_dq2 dm k) (fun e x a c j => dm_d2h_dq2 (mm e) k x a c 0 j);
  rd_d2h_dx2 : forall k, vecf (cs := [:: nx; nx; ny]) (nm_d2h_dx2 dm k) (fun e x a c j => dm_d2h_dx2 (mm e) k x a c 0 j);
  rd_d2h_dx_dq : forall k, vecf (cs := [:: nq; nx; ny]) (nm_d2h_dx_dq dm k) (fun e x a c j => dm_d2h_dx_dq (mm e) k x a c 0 j);
  rd_d2R_dq2 : exists2 R, rM2 [::] nq nq ny ny (nm_d2R_dq2 dm) (fun=> (R : 'I_nq -> 'I_nq -> 'M[F]_ny)) & forall e, inb b e -> forall a c, dm_d2R_dq2 (mm e) a c = R a c }.

Definition rds (d : ndstate F) (m : seq nat -> dstate F nx nq) : Prop :=
  rV1 b nq nx (nds_x d) (fun e => ds_x (m e)) /\ rM1 b nq nx nx (nds_P d) (fun e => ds_P (m e)).
Definition rd2s (d : ndstate F) (m : seq nat -> d2state F nx nq) : Prop :=
  rV2 b nq nq nx (nds_x d) (fun e => d2_x (m e)) /\ rM2 b nq nq nx nx (nds_P d) (fun e => d2_P (m e)).

Variables (dm : ndmodel F) (mm : seq nat -> dmodel F nx ny nq).
Hypothesis Hdm : rdmodel dm mm.
Let Hmd := rd_md Hdm.

(** ** Prediction *)

Section Pred.
Variable kappa : F.
Variables (s : nstate F) (st : seq nat -> fstate F nx).
Hypothesis Hs : rstate s st.
Variables (u : nut F) (mu : seq nat -> ut_data nx kappa nx).
Hypothesis Hu : rut b u mu.
Variables (d : ndstate F) (dd : seq nat -> dstate F nx nq).
Hypothesis Hd : rds d dd.
Let gx e x := md_df_dx (dm_md (mm e)) (ns_k s) x.

Lemma nd_prediction_diff_sim :
  sim b (rpair (rutd b mu gx) rds) (nd_prediction_diff nx dm kappa s u d)
    (fun e => let* v := pred_ut_diff (mm e) (st e) (mu e) (dd e) in Ok (v, pred_dstate (mm e) (st e) v (dd e))).
Proof.
have [Hk Hx HP] := Hs; have [Hdx HdP] := Hd; rewrite /nd_prediction_diff.
pose DQ e a := dm_dQ_dq (mm e) (ns_k s) (fs_x (st e)) a + \sum_i ds_x (dd e) a 0 i *: dm_dQ_dx (mm e) (ns_k s) (fs_x (st e)) i.
apply: (sim_ext (m := fun e => let* v := transform_diff (mu e) (dm_df_dq (mm e) (ns_k s)) (gx e) (ds_x (dd e)) (ds_P (dd e)) in
   Ok (v, DS (v_do v) (fun a => v_dPo v a + DQ e a)))); last first.
  by move=> e He; rewrite /pred_ut_diff /pred_dstate /DQ /gx Hk.
have Hf : vec b kappa (ni := nx) (cs := [:: nq; nx]) (fun X => Ok (nm_df_dq dm (ns_k s) X)) (fun e x a j => dm_df_dq (mm e) (ns_k s) x a 0 j).
  exact: vec_of (rd_df_dq Hdm _).
have Hg : vec b kappa (ni := nx) (cs := [:: nx; nx]) (fun X => Ok (nm_df_dx (nm_md dm) (ns_k s) X)) (fun e x i j => gx e x i j).
  exact: vec_of (rm_df_dx Hmd _).
apply: (sim_bind (k' := fun e v => Ok (v, DS (v_do v) (fun a => v_dPo v a + DQ e a)))
  (nd_transform_diff_sim Hu Hf Hg Hdx HdP)) => v vm Hv _.
have [_ _ _ _ [Hdo HdPo]] := Hv.
have H1 := proj1 (rd_dQ_dq Hdm (ns_k s)) _ _ Hx.
have H2 := proj1 (rd_dQ_dx Hdm (ns_k s)) _ _ Hx.
obind T HT (fun Z => rM1 b nq nx nx Z (fun e a => \sum_i ds_x (dd e) a 0 i *: dm_dQ_dx (mm e) (ns_k s) (fs_x (st e)) i)).
  ein "ijkl"%string [:: nq; nx; nx; nx] [:: true; true].
  by gets; rewrite summxE; apply: eq_bigr => k _; rewrite [RHS]mxE.
obind D HD (fun Z => rM1 b nq nx nx Z DQ).
  by ewise; rewrite [RHS]mxE.
obind P HP2 (fun Z => rM1 b nq nx nx Z (fun e a => v_dPo (vm e) a + DQ e a)).
  by ewise; rewrite [RHS]mxE.
by exists (fun e => (vm e, DS (v_do (vm e)) (fun a => v_dPo (vm e) a + DQ e a))).
Qed.

Lemma nd_prediction_diff2_ok v vm d2 dd2 : rutd b mu gx v vm -> rd2s d2 dd2 ->
  exists r, nd_prediction_diff2 nx dm kappa s u v d d2 = Ok r /\ rd2s r (fun e => pred_d2state (mm e) (st e) (mu e) (vm e) (dd e) (dd2 e)).
Proof.
move=> Hv [H2x H2P]; have [Hk Hx HP] := Hs; have [Hdx HdP] := Hd; rewrite /nd_prediction_diff2.
have Hqq : vec b kappa (ni := nx) (cs := [:: nq; nq; nx]) (fun X => Ok (nm_d2f_dq2 dm (ns_k s) X)) (fun e x a c j => dm_d2f_dq2 (mm e) (ns_k s) x a c 0 j).
  exact: vec_of (rd_d2f_dq2 Hdm _).
have Hxx : vec b kappa (ni := nx) (cs := [:: nx; nx; nx]) (fun X => Ok (nm_d2f_dx2 dm (ns_k s) X)) (fun e x a c j => dm_d2f_dx2 (mm e) (ns_k s) x a c 0 j).
  exact: vec_of (rd_d2f_dx2 Hdm _).
have Hqx : vec b kappa (ni := nx) (cs := [:: nq; nx; nx]) (fun X => Ok (nm_d2f_dx_dq dm (ns_k s) X)) (fun e x a c j => dm_d2f_dx_dq (mm e) (ns_k s) x a c 0 j).
  exact: vec_of (rd_d2f_dx_dq Hdm _).
have [w [-> Hw]] := nd_transform_diff2_ok Hu Hv Hqq Hxx Hqx H2x H2P; cbn [bind].
have [_ _ Ho HPo] := Hw.
have H1 := proj1 (rd_dQ_dx Hdm (ns_k s)) _ _ Hx.
have H2 := proj1 (rd_d2Q_dx_dq Hdm (ns_k s)) _ _ Hx.
have H3 := proj1 (rd_d2Q_dq2 Hdm (ns_k s)) _ _ Hx.
have H4 := proj1 (rd_d2Q_dx2 Hdm (ns_k s)) _ _ Hx.
pose x e := fs_x (st e). pose k := ns_k s.
pose X e a c := \sum_i ds_x (dd e) c 0 i *: dm_d2Q_dx_dq (mm e) k (x e) a i.
obind A HA (fun Z => rM2 b nq nq nx nx Z X).
  ein "abikl"%string [:: nq; nq; nx; nx; nx] [:: true; true].
  by gets; rewrite summxE; apply: eq_bigr => l _; rewrite [RHS]mxE.
have HAs := swap34_2 HA.
obind B HB (fun Z => rM2 b nq nq nx nx Z (fun e a c => X e a c + X e c a)).
  by ewise; rewrite [RHS]mxE.
obind C HC (fun Z => rM2 b nq nq nx nx Z (fun e a c => X e a c + X e c a + dm_d2Q_dq2 (mm e) k (x e) a c)).
  by ewise; rewrite [RHS]mxE.
obind T HT (fun Z => rM2 b nq nq nx nx Z (fun e a c => \sum_i d2_x (dd2 e) a c 0 i *: dm_dQ_dx (mm e) k (x e) i)).
  ein "abikl"%string [:: nq; nq; nx; nx; nx] [:: true; true].
  by gets; rewrite summxE; apply: eq_bigr => l _; rewrite [RHS]mxE.
obind D HD (fun Z => rM2 b nq nq nx nx Z (fun e a c => X e a c + X e c a + dm_d2Q_dq2 (mm e) k (x e) a c
  + \sum_i d2_x (dd2 e) a c 0 i *: dm_dQ_dx (mm e) k (x e) i)).
  by ewise; rewrite [RHS]mxE.
obind T2 HT2 (fun Z => rM2 b nq nq nx nx Z (fun e a c => \sum_i \sum_j (ds_x (dd e) c 0 i * ds_x (dd e) a 0 j) *: dm_d2Q_dx2 (mm e) k (x e) j i)).
  ein "abijkl"%string [:: nq; nq; nx; nx; nx; nx] [:: true; true; true].
  by gets; rewrite summxE; apply: eq_bigr => l _; rewrite summxE; apply: eq_bigr => l' _; rewrite [RHS]mxE mulrAC.
obind E HE (fun Z => rM2 b nq nq nx nx Z (fun e a c => X e a c + X e c a + dm_d2Q_dq2 (mm e) k (x e) a c
  + \sum_i d2_x (dd2 e) a c 0 i *: dm_dQ_dx (mm e) k (x e) i
  + \sum_i \sum_j (ds_x (dd e) c 0 i * ds_x (dd e) a 0 j) *: dm_d2Q_dx2 (mm e) k (x e) j i)).
  by ewise; rewrite [RHS]mxE.
obind P HP2 (fun Z => rM2 b nq nq nx nx Z (fun e a c => d2_P (pred_d2state (mm e) (st e) (mu e) (vm e) (dd e) (dd2 e)) a c)).
  by ewise; rewrite /pred_d2state /= [RHS]mxE Hk.
eexists; split; first by []; split=> //=.
by apply: (rep_ext Ho) => e He a c j; rewrite Hk.
Qed.
End Pred.

(** ** Correction *)

Section Corr.
Variable kappa : F.
Variables (s : nstate F) (st : seq nat -> fstate F nx).
Hypothesis Hs : rstate s st.
Variable ym : meas F ny.
Notation A := (active ym).
Notation na := #|A|.
Notation act := (bits A).
Variables (u : nut F) (c : ncorr F) (cm : seq nat -> corr0 nx kappa A).
Hypothesis Hc : rcorr b (u, c) cm.
Let gx e x := pick A (md_dh_dx (dm_md (mm e)) (ns_k s) x).

Definition rcorr1 (c1 : ncorr1 F) (m : seq nat -> corr1 nx nq kappa A) : Prop :=
  [/\ rutd b (fun e => c_u (cm e)) gx (nk_v c1) (fun e => c_v (m e)),
      rV1 b nq na (nk_de c1) (fun e => c_de (m e)),
      rM1 b nq nx na (nk_dPxh c1) (fun e => c_dPxh (m e)) /\ rM1 b nq na na (nk_dPy c1) (fun e => c_dPy (m e)),
      rM1 b nq na na (nk_dPyI c1) (fun e => c_dPyI (m e)) &
      rM1 b nq nx na (nk_dK c1) (fun e => c_dK (m e))].

Lemma nd_correction_diff_sim d dd : rds d dd ->
  sim b (rpair rcorr1 rds) (nd_correction_diff nx dm kappa s act u c d)
    (fun e => let* c1 := correct1 (mm e) (st e) (cm e) (dd e) in Ok (c1, corr_dstate (cm e) c1 (dd e))).
Proof.
case=> Hdx HdP; have [Hk Hx HP] := Hs; rewrite /nd_correction_diff.
have [Hu [Hce HPxh] [HPy HPyI] HK _] := Hc; cbn [fst snd] in Hu, Hce, HPxh, HPy, HPyI, HK.
have [R HR ER] := rd_dR_dq Hdm.
have Hf : vec b kappa (ni := nx) (cs := [:: nq; na]) (fun X => getmask act (nm_dh_dq dm (ns_k s) X))
    (fun e x a j => pick A (dm_dh_dq (mm e) (ns_k s) x a) 0 j).
  move=> X XM HX; have [Y [-> HY]] := mask_1' A (proj2 (rd_dh_dq Hdm (ns_k s)) _ _ _ HX).
  by exists Y; split=> //; apply: (rep_ext HY) => e He' k a j; rewrite [RHS]mxE.
have Hg : vec b kappa (ni := nx) (cs := [:: nx; na]) (fun X => getmask act (nm_dh_dx (nm_md dm) (ns_k s) X)) (fun e x i j => gx e x i j).
  move=> X XM HX; have [Y [-> HY]] := mask_1' A (proj2 (rm_dh_dx Hmd (ns_k s)) _ _ _ HX).
  by exists Y; split=> //; apply: (rep_ext HY) => e He' k a j; rewrite [RHS]mxE.
pose G e (v : ut_diff nx na nq kappa) :=
  let dPxh := crosscov_diff (c_u (cm e)) v in
  let de a := - v_do v a in
  let dPy a := v_dPo v a + pick2 A (dm_dR_dq (mm e) a) in
  let dPyI a := - (c_PyI (cm e) *m dPy a *m c_PyI (cm e)) in
  let dK a := c_Pxh (cm e) *m dPyI a + dPxh a *m c_PyI (cm e) in
  C1 v de dPxh dPy dPyI dK.
apply: (sim_ext (m := fun e => let* v := transform_diff (c_u (cm e)) (fun x a => pick A (dm_dh_dq (mm e) (ns_k s) x a)) (gx e) (ds_x (dd e)) (ds_P (dd e)) in
   Ok (G e v, corr_dstate (cm e) (G e v) (dd e)))); last first.
  by move=> e He'; rewrite /correct1 /gx Hk //; case: (transform_diff _ _ _ _ _).
apply: (sim_bind (k' := fun e v => Ok (G e v, corr_dstate (cm e) (G e v) (dd e))) (nd_transform_diff_sim Hu Hf Hg Hdx HdP)) => v vm Hv _.
have [_ _ _ _ [Hdo HdPo]] := Hv.
have [dPxh [-> HdPxh]] := nd_crosscov_diff_ok Hu Hv; cbn [bind].
have [dR [-> HdR]] := mask2_1 A HR; cbn [bind].
have Hde : rV1 b nq na (nd_opp (nv_do v)) (fun e => c_de (G e (vm e))).
  by apply: (rep_map1 Hdo) => e He' a j /=; rewrite [RHS]mxE.
obind dPy HdPy (fun Z => rM1 b nq na na Z (fun e => c_dPy (G e (vm e)))).
  by ewise; rewrite [RHS]mxE [X in _ = _ + X]mxE ER.
obind T HT (fun Z => rM1 b nq na na Z (fun e a => c_PyI (cm e) *m c_dPy (G e (vm e)) a *m c_PyI (cm e))).
  ein "aijkl"%string [:: nq; na; na; na; na] [:: true; true; true].
  by gets; rewrite mul3.
have HdPyI : rM1 b nq na na (nd_opp T) (fun e => c_dPyI (G e (vm e))).
  by apply: (rep_map1 HT) => e He' a i j /=; rewrite [RHS]mxE.
obind K1 HK1 (fun Z => rM1 b nq nx na Z (fun e a => c_Pxh (cm e) *m c_dPyI (G e (vm e)) a)).
  ein "aijk"%string [:: nq; nx; na; na] [:: true; true].
  by gets; rewrite mul2.
obind T2 HT2 (fun Z => rM1 b nq nx na Z (fun e a => c_dPxh (G e (vm e)) a *m c_PyI (cm e))).
  ein "aijk"%string [:: nq; nx; na; na] [:: true; true].
  by gets; rewrite mul2.
obind dK HdK (fun Z => rM1 b nq nx na Z (fun e => c_dK (G e (vm e)))).
  by ewise; rewrite [RHS]mxE.
obind T3 HT3 (fun Z => rV1 b nq nx Z (fun e a => c_e (cm e) *m (c_dK (G e (vm e)) a)^T)).
  ein "aij"%string [:: nq; nx; na] [:: true; true].
  by gets; rewrite mulv.
obind x1 Hx1 (fun Z => rV1 b nq nx Z (fun e a => ds_x (dd e) a + c_e (cm e) *m (c_dK (G e (vm e)) a)^T)).
  by ewise; rewrite [RHS]mxE.
obind T4 HT4 (fun Z => rV1 b nq nx Z (fun e a => c_de (G e (vm e)) a *m (c_K (cm e))^T)).
  ein "aij"%string [:: nq; nx; na] [:: true; true].
  by gets; rewrite mulv.
obind x2 Hx2 (fun Z => rV1 b nq nx Z (fun e => ds_x (corr_dstate (cm e) (G e (vm e)) (dd e)))).
  by ewise; rewrite [RHS]mxE.
obind T5 HT5 (fun Z => rM1 b nq nx nx Z (fun e a => c_K (cm e) *m (c_dPy (G e (vm e)) a)^T *m (c_K (cm e))^T)).
  ein "aijkl"%string [:: nq; nx; nx; na; na] [:: true; true; true].
  by gets; rewrite mul3tt.
obind P1 HP1 (fun Z => rM1 b nq nx nx Z (fun e a => ds_P (dd e) a - c_K (cm e) *m (c_dPy (G e (vm e)) a)^T *m (c_K (cm e))^T)).
  by ewise; rewrite [RHS]mxE [X in _ = _ + X]mxE.
pose M e a := c_dK (G e (vm e)) a *m (c_Py (cm e))^T *m (c_K (cm e))^T.
obind T6 HT6 (fun Z => rM1 b nq nx nx Z M).
  ein "aijkl"%string [:: nq; nx; nx; na; na] [:: true; true; true].
  by gets; rewrite mul3tt.
have HT6s := swap12_1 HT6.
obind T7 HT7 (fun Z => rM1 b nq nx nx Z (fun e a => M e a + (M e a)^T)).
  by ewise; rewrite [RHS]mxE.
obind P2 HP2 (fun Z => rM1 b nq nx nx Z (fun e => ds_P (corr_dstate (cm e) (G e (vm e)) (dd e)))).
  by ewise; rewrite /corr_dstate /= [RHS]mxE [X in _ = _ + X]mxE.
exists (fun e => (G e (vm e), corr_dstate (cm e) (G e (vm e)) (dd e))); split=> //.
Qed.

Definition rcorr2 (c2 : ncorr2 F) (m : seq nat -> corr2 F nx nq A) : Prop :=
  [/\ rV2 b nq nq na (nk_d2e c2) (fun e => c_d2e (m e)), rM2 b nq nq na na (nk_d2Py c2) (fun e => c_d2Py (m e)) &
      rM2 b nq nq na na (nk_d2PyI c2) (fun e => c_d2PyI (m e))].

Lemma nd_correction_diff2_ok c1 cm1 d2 dd2 : rcorr1 c1 cm1 -> rd2s d2 dd2 ->
  exists r, nd_correction_diff2 nx dm kappa s act u c c1 d2 = Ok r
    /\ rpair rcorr2 rd2s r (fun e => let c2 := correct2 (mm e) (st e) (cm e) (cm1 e) (dd2 e) in (c2, corr_d2state (cm e) (cm1 e) c2 (dd2 e))).
Proof.
move=> [Hv Hde [HdPxh HdPy] HdPyI HdK] [H2x H2P]; have [Hk Hx HP] := Hs; rewrite /nd_correction_diff2.
have [Hu [Hce HPxh] [HPy HPyI] HK _] := Hc; cbn [fst snd] in Hu, Hce, HPxh, HPy, HPyI, HK.
have [R HR ER] := rd_d2R_dq2 Hdm.
have Hqq : vec b kappa (ni := nx) (cs := [:: nq; nq; na]) (fun X => getmask act (nm_d2h_dq2 dm (ns_k s) X))
    (fun e x a c j => pick A (dm_d2h_dq2 (mm e) (ns_k s) x a c) 0 j).
  move=> X XM HX; have [Y [-> HY]] := mask_1'' A (proj2 (rd_d2h_dq2 Hdm (ns_k s)) _ _ _ HX).
  by exists Y; split=> //; apply: (rep_ext HY) => e He' k a c' j; rewrite [RHS]mxE.
have Hxx : vec b kappa (ni := nx) (cs := [:: nx; nx; na]) (fun X => getmask act (nm_d2h_dx2 dm (ns_k s) X))
    (fun e x a c j => pick A (dm_d2h_dx2 (mm e) (ns_k s) x a c) 0 j).
  move=> X XM HX; have [Y [-> HY]] := mask_1'' A (proj2 (rd_d2h_dx2 Hdm (ns_k s)) _ _ _ HX).
  by exists Y; split=> //; apply: (rep_ext HY) => e He' k a c' j; rewrite [RHS]mxE.
have Hqx : vec b kappa (ni := nx) (cs := [:: nq; nx; na]) (fun X => getmask act (nm_d2h_dx_dq dm (ns_k s) X))
    (fun e x a c j => pick A (dm_d2h_dx_dq (mm e) (ns_k s) x a c) 0 j).
  move=> X XM HX; have [Y [-> HY]] := mask_1'' A (proj2 (rd_d2h_dx_dq Hdm (ns_k s)) _ _ _ HX).
  by exists Y; split=> //; apply: (rep_ext HY) => e He' k a c' j; rewrite [RHS]mxE.
have [w [-> Hw]] := nd_transform_diff2_ok Hu Hv Hqq Hxx Hqx H2x H2P; cbn [bind].
have [_ _ Ho HPo] := Hw.
have [d2Pxh [-> Hd2Pxh]] := nd_crosscov_diff2_ok Hu Hv Hw; cbn [bind].
have [d2R [-> Hd2R]] := mask2_2 A HR; cbn [bind].
pose G e := correct2 (mm e) (st e) (cm e) (cm1 e) (dd2 e).
have Hd2e : rV2 b nq nq na (nd_opp (nw_d2o w)) (fun e => c_d2e (G e)).
  by apply: (rep_map1 Ho) => e He' a c' j /=; rewrite /gx Hk // [RHS]mxE.
obind d2Py Hd2Py (fun Z => rM2 b nq nq na na Z (fun e => c_d2Py (G e))).
  by ewise; rewrite /= /gx Hk // [RHS]mxE [X in _ = _ + X]mxE ER.
pose dPy e := c_dPy (cm1 e). pose dPyI e := c_dPyI (cm1 e). pose PyI e := c_PyI (cm e).
obind T1 HT1 (fun Z => rM2 b nq nq na na Z (fun e a b => dPyI e a *m dPy e b *m PyI e)).
  ein "abijkl"%string [:: nq; nq; na; na; na; na] [:: true; true; true].
  by gets; rewrite mul3.
have HT1' : rM2 b nq nq na na (nd_opp T1) (fun e a b => - (dPyI e a *m dPy e b *m PyI e)).
  by apply: (rep_map1 HT1) => e He' a c' i j /=; rewrite [RHS]mxE.
obind T2 HT2 (fun Z => rM2 b nq nq na na Z (fun e a b => PyI e *m c_d2Py (G e) a b *m PyI e)).
  ein "abijkl"%string [:: nq; nq; na; na; na; na] [:: true; true; true].
  by gets; rewrite mul3.
obind I1 HI1 (fun Z => rM2 b nq nq na na Z (fun e a b => - (dPyI e a *m dPy e b *m PyI e) - PyI e *m c_d2Py (G e) a b *m PyI e)).
  by ewise; rewrite [RHS]mxE [X in _ = _ + X]mxE.
obind T3 HT3 (fun Z => rM2 b nq nq na na Z (fun e a b => PyI e *m dPy e b *m dPyI e a)).
  ein "abijkl"%string [:: nq; nq; na; na; na; na] [:: true; true; true].
  by gets; rewrite mul3.
obind I2 HI2 (fun Z => rM2 b nq nq na na Z (fun e => c_d2PyI (G e))).
  by ewise; rewrite /= [RHS]mxE [X in _ = _ + X]mxE.
obind K1 HK1 (fun Z => rM2 b nq nq nx na Z (fun e a b => c_dPxh (cm1 e) a *m dPyI e b)).
  ein "abijk"%string [:: nq; nq; nx; na; na] [:: true; true].
  by gets; rewrite mul2.
obind T4 HT4 (fun Z => rM2 b nq nq nx na Z (fun e a b => c_Pxh (cm e) *m c_d2PyI (G e) a b)).
  ein "abijk"%string [:: nq; nq; nx; na; na] [:: true; true].
  by gets; rewrite mul2.
obind K2 HK2 (fun Z => rM2 b nq nq nx na Z (fun e a b => c_dPxh (cm1 e) a *m dPyI e b + c_Pxh (cm e) *m c_d2PyI (G e) a b)).
  by ewise; rewrite [RHS]mxE.
pose d2Pxh' e := crosscov_diff2 (c_u (cm e)) (c_v (cm1 e)) (transform_diff2 (c_u (cm e)) (gx e)
     (fun x a c => pick A (dm_d2h_dq2 (mm e) (ns_k s) x a c)) (fun x a c => pick A (dm_d2h_dx2 (mm e) (ns_k s) x a c))
     (fun x a c => pick A (dm_d2h_dx_dq (mm e) (ns_k s) x a c)) (c_v (cm1 e)) (d2_x (dd2 e)) (d2_P (dd2 e))).
obind T5 HT5 (fun Z => rM2 b nq nq nx na Z (fun e a b => d2Pxh' e a b *m PyI e)).
  ein "abijk"%string [:: nq; nq; nx; na; na] [:: true; true].
  by gets; rewrite mul2.
obind K3 HK3 (fun Z => rM2 b nq nq nx na Z (fun e a b => c_dPxh (cm1 e) a *m dPyI e b + c_Pxh (cm e) *m c_d2PyI (G e) a b + d2Pxh' e a b *m PyI e)).
  by ewise; rewrite [RHS]mxE.
obind T6 HT6 (fun Z => rM2 b nq nq nx na Z (fun e a b => c_dPxh (cm1 e) b *m dPyI e a)).
  ein "abijk"%string [:: nq; nq; nx; na; na] [:: true; true].
  by gets; rewrite mul2.
obind K4 HK4 (fun Z => rM2 b nq nq nx na Z (fun e => c_d2K (G e))).
  by ewise; rewrite /= /d2Pxh' /gx Hk // [RHS]mxE.
pose dK e := c_dK (cm1 e). pose de e := c_de (cm1 e). pose K e := c_K (cm e). pose d2K e := c_d2K (G e).
obind T7 HT7 (fun Z => rV2 b nq nq nx Z (fun e a b => c_e (cm e) *m (d2K e a b)^T)).
  ein "abij"%string [:: nq; nq; nx; na] [:: true; true].
  by gets; rewrite mulv.
obind x1 Hx1 (fun Z => rV2 b nq nq nx Z (fun e a b => d2_x (dd2 e) a b + c_e (cm e) *m (d2K e a b)^T)).
  by ewise; rewrite [RHS]mxE.
obind T8 HT8 (fun Z => rV2 b nq nq nx Z (fun e a b => de e a *m (dK e b)^T)).
  ein "abij"%string [:: nq; nq; nx; na] [:: true; true].
  by gets; rewrite mulv.
obind x2 Hx2 (fun Z => rV2 b nq nq nx Z (fun e a b => d2_x (dd2 e) a b + c_e (cm e) *m (d2K e a b)^T + de e a *m (dK e b)^T)).
  by ewise; rewrite [RHS]mxE.
obind T9 HT9 (fun Z => rV2 b nq nq nx Z (fun e a b => de e b *m (dK e a)^T)).
  ein "abij"%string [:: nq; nq; nx; na] [:: true; true].
  by gets; rewrite mulv.
obind x3 Hx3 (fun Z => rV2 b nq nq nx Z (fun e a b => d2_x (dd2 e) a b + c_e (cm e) *m (d2K e a b)^T + de e a *m (dK e b)^T + de e b *m (dK e a)^T)).
  by ewise; rewrite [RHS]mxE.
obind T10 HT10 (fun Z => rV2 b nq nq nx Z (fun e a b => c_d2e (G e) a b *m (K e)^T)).
  ein "abij"%string [:: nq; nq; nx; na] [:: true; true].
  by gets; rewrite mulv.
obind x4 Hx4 (fun Z => rV2 b nq nq nx Z (fun e => d2_x (corr_d2state (cm e) (cm1 e) (G e) (dd2 e)))).
  by ewise; rewrite [RHS]mxE.
pose PyT e := (c_Py (cm e))^T.
obind T11 HT11 (fun Z => rM2 b nq nq nx nx Z (fun e a b => d2K e a b *m PyT e *m (K e)^T)).
  ein "abijkl"%string [:: nq; nq; nx; nx; na; na] [:: true; true; true].
  by gets; rewrite mul3tt.
obind P1 HP1 (fun Z => rM2 b nq nq nx nx Z (fun e a b => d2_P (dd2 e) a b - d2K e a b *m PyT e *m (K e)^T)).
  by ewise; rewrite [RHS]mxE [X in _ = _ + X]mxE.
obind T12 HT12 (fun Z => rM2 b nq nq nx nx Z (fun e a b => dK e b *m PyT e *m (dK e a)^T)).
  ein "abijkl"%string [:: nq; nq; nx; nx; na; na] [:: true; true; true].
  by gets; rewrite mul3tt.
obind P2 HP2 (fun Z => rM2 b nq nq nx nx Z (fun e a b => d2_P (dd2 e) a b - d2K e a b *m PyT e *m (K e)^T - dK e b *m PyT e *m (dK e a)^T)).
  by ewise; rewrite [RHS]mxE [X in _ = _ + X]mxE.
obind T13 HT13 (fun Z => rM2 b nq nq nx nx Z (fun e a b => dK e a *m PyT e *m (dK e b)^T)).
  ein "abijkl"%string [:: nq; nq; nx; nx; na; na] [:: true; true; true].
  by gets; rewrite mul3tt.
pose Q3 e a b := d2_P (dd2 e) a b - d2K e a b *m PyT e *m (K e)^T - dK e b *m PyT e *m (dK e a)^T - dK e a *m PyT e *m (dK e b)^T.
obind P3 HP3 (fun Z => rM2 b nq nq nx nx Z Q3).
  by ewise; rewrite [RHS]mxE [X in _ = _ + X]mxE.
pose X e a b := dK e b *m (dPy e a)^T *m (K e)^T.
obind X1 HX1 (fun Z => rM2 b nq nq nx nx Z X).
  ein "abijkl"%string [:: nq; nq; nx; nx; na; na] [:: true; true; true].
  by gets; rewrite mul3tt.
have HX1s := swap21_2 HX1.
obind X2 HX2 (fun Z => rM2 b nq nq nx nx Z (fun e a b => X e a b + (X e a b)^T)).
  by ewise; rewrite [RHS]mxE.
have HX2s := swap34_2 HX2.
pose Z' e a b := (X e a b + (X e a b)^T) + (X e b a + (X e b a)^T).
obind X3 HX3 (fun Z => rM2 b nq nq nx nx Z Z').
  by ewise; rewrite [RHS]mxE.
obind P4 HP4 (fun Z => rM2 b nq nq nx nx Z (fun e a b => Q3 e a b - Z' e a b)).
  by ewise; rewrite [RHS]mxE [X in _ = _ + X]mxE.
obind T14 HT14 (fun Z => rM2 b nq nq nx nx Z (fun e a b => K e *m PyT e *m (d2K e a b)^T)).
  ein "abijkl"%string [:: nq; nq; nx; nx; na; na] [:: true; true; true].
  by gets; rewrite mul3tt.
obind P5 HP5 (fun Z => rM2 b nq nq nx nx Z (fun e a b => Q3 e a b - Z' e a b - K e *m PyT e *m (d2K e a b)^T)).
  by ewise; rewrite [RHS]mxE [X in _ = _ + X]mxE.
obind T15 HT15 (fun Z => rM2 b nq nq nx nx Z (fun e a b => K e *m (c_d2Py (G e) a b)^T *m (K e)^T)).
  ein "abijkl"%string [:: nq; nq; nx; nx; na; na] [:: true; true; true].
  by gets; rewrite mul3tt.
obind P6 HP6 (fun Z => rM2 b nq nq nx nx Z (fun e => d2_P (corr_d2state (cm e) (cm1 e) (G e) (dd2 e)))).
  by ewise; rewrite /corr_d2state; cbn [d2_P]; rewrite [RHS]mxE [X in _ = _ + X]mxE.
by eexists; split; first by [].
Qed.

(** ** Likelihood *)

Lemma nd_update_likelihood_ok (L : nd) (L' : seq nat -> F) : rL b L L' ->
  exists C, nd_update_likelihood log L (Some c) = Ok C /\ r0 b C (fun e => lik0 log (cm e) (L' e)).
Proof.
have [_ [Hce _] [_ HPyI] _ [PyC EPyC HPyC]] := Hc; cbn [fst snd] in Hce, HPyI, EPyC.
move=> HL; rewrite /nd_update_likelihood EPyC.
obind D HD (fun Z => r1 b na Z (fun e k => c_PyC (cm e) k k)).
  ein "k"%string [:: na] [:: true].
  by gets.
obind T HT (fun Z => r0 b Z (fun e => (c_e (cm e) *m c_PyI (cm e) *m (c_e (cm e))^T) 0 0)).
  ein "ij"%string [:: na; na] [:: true; true; true].
  by gets; rewrite mul3r.
have HT' : r0 b (nd_scale 2%:R^-1 T) (fun e => 2%:R^-1 * (c_e (cm e) *m c_PyI (cm e) *m (c_e (cm e))^T) 0 0) by apply: (rep_map1 HT).
obind L1 HL1 (fun Z => r0 b Z (fun e => L' e - 2%:R^-1 * (c_e (cm e) *m c_PyI (cm e) *m (c_e (cm e))^T) 0 0)).
  exact: rL_sub HL HT' _.
have HS : r0 b (sum_last (map1 log D)) (fun e => \sum_k log (c_PyC (cm e) k k)).
  by apply: (rep_sum0 (f := fun e k => log (c_PyC (cm e) k k))); apply: (rep_map1 HD).
exact: rL_sub (or_introl HL1) HS _.
Qed.

Definition rlik (p : nchol F * nd * nd) (dPy : seq nat -> 'I_nq -> 'M[F]_na) (m : seq nat -> ('M[F]_(ntril na) * ('I_nq -> 'M[F]_na)) * ('I_nq -> F)) : Prop :=
  [/\ rchol b dPy p.1.1 (fun e => (m e).1), r2 b nq na p.1.2 (fun e a k => (m e).1.2 a k k) & r1 b nq p.2 (fun e => (m e).2)].

Lemma nd_likelihood_diff_sim c1 cm1 (dL : nd) (dL' : seq nat -> 'I_nq -> F) : rcorr1 c1 cm1 -> r1 b nq dL dL' ->
  sim b (fun p m => rlik p (fun e => c_dPy (cm1 e)) m) (nd_likelihood_diff c c1 dL) (fun e => lik1 (cm e) (cm1 e) (dL' e)).
Proof.
have [_ [Hce _] [_ HPyI] _ [PyC EPyC HPyC]] := Hc; cbn [fst snd] in Hce, HPyI, EPyC.
move=> [Hv Hde [HdPxh HdPy] HdPyI HdK] HdL; rewrite /nd_likelihood_diff /lik1 /the_PyC EPyC; cbn [bind].
obind D HD (fun Z => r1 b na Z (fun e k => c_PyC (cm e) k k)).
  ein "k"%string [:: na] [:: true].
  by gets.
have H0 := nd_chol_diff_sim (MQ := fun e => c_dPy (cm1 e)) HPyC HdPy.
pose k' e (ch : 'M[F]_(ntril na) * ('I_nq -> 'M[F]_na)) := Ok (ch, fun a => dL' e a - \sum_k ch.2 a k k / c_PyC (cm e) k k
            - (c_de (cm1 e) a *m c_PyI (cm e) *m (c_e (cm e))^T) 0 0
            - 2%:R^-1 * (c_e (cm e) *m c_dPyI (cm1 e) a *m (c_e (cm e))^T) 0 0).
refine (sim_bind (k' := k') H0 _) => ch mch Hch _.
have [_ _ HdS] := Hch.
obind D1 HD1 (fun Z => r2 b nq na Z (fun e a k => (mch e).2 a k k)).
  exact: diag_rM1 HdS.
rewrite /nd_div; have [T [-> HT]] := rep_new1 (fun x y => x / y) HD1 (rep_newaxes1 HD); cbn [bind].
have HTs := rep_sum1 HT.
obind L1 HL1 (fun Z => r1 b nq Z (fun e a => dL' e a - \sum_k (mch e).2 a k k / c_PyC (cm e) k k)).
  by ewise.
obind T2 HT2 (fun Z => r1 b nq Z (fun e a => (c_de (cm1 e) a *m c_PyI (cm e) *m (c_e (cm e))^T) 0 0)).
  ein "aij"%string [:: nq; na; na] [:: true; true; true].
  by gets; rewrite mul3r.
obind L2 HL2 (fun Z => r1 b nq Z (fun e a => dL' e a - \sum_k (mch e).2 a k k / c_PyC (cm e) k k
    - (c_de (cm1 e) a *m c_PyI (cm e) *m (c_e (cm e))^T) 0 0)).
  by ewise.
obind T3 HT3 (fun Z => r1 b nq Z (fun e a => (c_e (cm e) *m c_dPyI (cm1 e) a *m (c_e (cm e))^T) 0 0)).
  ein "aij"%string [:: nq; na; na] [:: true; true; true].
  by gets; rewrite mul3r.
have HT3' : r1 b nq (nd_scale 2%:R^-1 T3) (fun e a => 2%:R^-1 * (c_e (cm e) *m c_dPyI (cm1 e) a *m (c_e (cm e))^T) 0 0).
  by apply: (rep_map1 HT3).
pose L3' e a := dL' e a - \sum_k (mch e).2 a k k / c_PyC (cm e) k k
    - (c_de (cm1 e) a *m c_PyI (cm e) *m (c_e (cm e))^T) 0 0
    - 2%:R^-1 * (c_e (cm e) *m c_dPyI (cm1 e) a *m (c_e (cm e))^T) 0 0.
obind L3 HL3 (fun Z => r1 b nq Z L3').
  by ewise.
by exists (fun e => (mch e, L3' e)).
Qed.

Lemma nd_likelihood_diff2_ok c1 cm1 c2 cm2 p m (d2L : nd) (d2L' : seq nat -> 'I_nq -> 'I_nq -> F) :
  rcorr1 c1 cm1 -> rcorr2 c2 cm2 -> rlik p (fun e => c_dPy (cm1 e)) m -> r2 b nq nq d2L d2L' ->
  exists r, nd_likelihood_diff2 c c1 c2 p.1.1 p.1.2 d2L = Ok r
    /\ r2 b nq nq r (fun e => lik2 (cm e) (cm1 e) (cm2 e) (m e).1 (d2L' e)).
Proof.
have [_ [Hce _] [_ HPyI] _ [PyC EPyC HPyC]] := Hc; cbn [fst snd] in Hce, HPyI, EPyC.
move=> [Hv Hde [HdPxh HdPy] HdPyI HdK] [Hd2e Hd2Py Hd2PyI] [Hch HD1 _] HdL; rewrite /nd_likelihood_diff2 /the_PyC EPyC; cbn [bind].
obind D HD (fun Z => r1 b na Z (fun e k => c_PyC (cm e) k k)).
  ein "k"%string [:: na] [:: true].
  by gets.
have [C2 [-> HC2]] := nd_chol_diff2_ok HPyC Hch Hd2Py; cbn [bind].
pose d2PyC e := chol_diff2 (m e).1.1 (c_dPy (cm1 e)) (m e).1.2 (c_d2Py (cm2 e)).
obind D2 HD2 (fun Z => rep (pre := [::]) (cs := [:: nq; nq; na]) b Z (fun e a c k => d2PyC e a c k k)).
  exact: diag_rM2 HC2.
rewrite /nd_div; have [T [-> HT]] := rep_new2 (fun x y => x / y) HD2 (rep_newaxes2 HD); cbn [bind].
have HTs := rep_sum2 HT.
pose Q1 e a c := d2L' e a c - \sum_k d2PyC e a c k k / c_PyC (cm e) k k.
obind L1 HL1 (fun Z => r2 b nq nq Z Q1).
  by ewise.
have HDsq : rep (pre := [::]) (cs := [:: 1%N; na]) b (map1 (fun x => x ^+ 2) (newaxes 1 D)) (fun e _ k => c_PyC (cm e) k k ^+ 2).
  by apply: (rep_map1 (rep_newaxes1 HD)).
rewrite /nd_div; have [T2 [-> HT2]] := rep_new1 (fun x y => x / y) HD1 HDsq; cbn [bind].
obind T3 HT3 (fun Z => r2 b nq nq Z (fun e a c => \sum_k (m e).1.2 a k k * ((m e).1.2 c k k / c_PyC (cm e) k k ^+ 2))).
  ein "abk"%string [:: nq; nq; na] [:: true; true].
  by gets.
pose Q2 e a c := Q1 e a c + \sum_k (m e).1.2 a k k * ((m e).1.2 c k k / c_PyC (cm e) k k ^+ 2).
obind L2 HL2 (fun Z => r2 b nq nq Z Q2).
  by ewise.
obind T4 HT4 (fun Z => r2 b nq nq Z (fun e a c => (c_de (cm1 e) a *m c_PyI (cm e) *m (c_de (cm1 e) c)^T) 0 0)).
  ein "abij"%string [:: nq; nq; na; na] [:: true; true; true].
  by gets; rewrite mul3r.
pose Q3 e a c := Q2 e a c - (c_de (cm1 e) a *m c_PyI (cm e) *m (c_de (cm1 e) c)^T) 0 0.
obind L3 HL3 (fun Z => r2 b nq nq Z Q3).
  by ewise.
obind T5 HT5 (fun Z => r2 b nq nq Z (fun e a c => (c_d2e (cm2 e) a c *m c_PyI (cm e) *m (c_e (cm e))^T) 0 0)).
  ein "abij"%string [:: nq; nq; na; na] [:: true; true; true].
  by gets; rewrite mul3r.
pose Q4 e a c := Q3 e a c - (c_d2e (cm2 e) a c *m c_PyI (cm e) *m (c_e (cm e))^T) 0 0.
obind L4 HL4 (fun Z => r2 b nq nq Z Q4).
  by ewise.
obind T6 HT6 (fun Z => r2 b nq nq Z (fun e a c => (c_e (cm e) *m c_d2PyI (cm2 e) a c *m (c_e (cm e))^T) 0 0)).
  ein "abij"%string [:: nq; nq; na; na] [:: true; true; true].
  by gets; rewrite mul3r.
have HT6' : r2 b nq nq (nd_scale 2%:R^-1 T6) (fun e a c => 2%:R^-1 * (c_e (cm e) *m c_d2PyI (cm2 e) a c *m (c_e (cm e))^T) 0 0).
  by apply: (rep_map1 HT6).
pose Q5 e a c := Q4 e a c - 2%:R^-1 * (c_e (cm e) *m c_d2PyI (cm2 e) a c *m (c_e (cm e))^T) 0 0.
obind L5 HL5 (fun Z => r2 b nq nq Z Q5).
  by ewise.
pose X e a c := (c_de (cm1 e) a *m c_dPyI (cm1 e) c *m (c_e (cm e))^T) 0 0.
obind T7 HT7 (fun Z => r2 b nq nq Z X).
  ein "abij"%string [:: nq; nq; na; na] [:: true; true; true].
  by gets; rewrite mul3r.
obind L6 HL6 (fun Z => r2 b nq nq Z (fun e a c => Q5 e a c - X e a c)).
  by ewise.
have HX : r2 b nq nq (swapaxes 1 2 T7) (fun e a c => X e c a) by exact: rep_swap12 HT7.
by ewise.
Qed.
End Corr.

End Diff.
