(** C87: concrete cases. *)
From Coq Require Import String Ascii.
From Verif Require Import Py.
From mathcomp Require Import all_ssreflect all_algebra.
From Verif Require Import PsdLemmas KalModel KalLemmas UtLemmas KalDiffModel NpModel NpLemmas NdKalModel ObjModel ObjShape PropsObj.
From Verif Require Import NpOps NdTransLemmas NdFilterLemmas NdDiffLemmas PropsNdKal.
Set Implicit Arguments.
Unset Strict Implicit.
Unset Printing Implicit Defensive.
Import Order.TTheory GRing.Theory Num.Theory.
Local Open Scope ring_scope.

Section Case.
Variable F : rcfType.
Local Notation nd := (nd F).

(** Two filters with different states and different models, three
    measurements of which the last is masked: a new instance, and what
    [filter] returns on it. *)
Let mm (e : seq nat) : dmodel F 1 1 0 :=
  DModel (Model (fun _ x => (nth 0%N e 0%N).+1%:R *: x) (fun _ _ => (nth 0%N e 0%N).+1%:R%:M) (fun _ _ => 1%:M) (fun _ x => x) (fun _ _ => 1%:M) 1%:M)
    (fun _ _ _ => 0) (fun _ _ _ => 0) (fun _ _ _ => 0) (fun _ _ _ => 0) (fun _ => 0)
    (fun _ _ _ _ => 0) (fun _ _ _ _ => 0) (fun _ _ _ _ => 0) (fun _ _ _ _ => 0) (fun _ _ _ _ => 0) (fun _ _ _ _ => 0)
    (fun _ _ _ _ => 0) (fun _ _ _ _ => 0) (fun _ _ _ _ => 0) (fun _ _ => 0).
Let dm := vectorise [:: 2%N] mm 1%:M (fun=> 0 : 'M[F]_1) (fun _ _ => 0 : 'M[F]_1).
Let i0 : initial F := Initial 0 (ND [:: 2; 1]%N (fun i => (nth 0%N i 0%N)%:R)) (ND [:: 2; 1; 1]%N (fun=> 1))
  (zeros F [:: 2%N]) (zeros F [:: 2; 0]%N) (zeros F [:: 2; 0; 0]%N) (zeros F [:: 2; 0; 1]%N) (zeros F [:: 2; 0; 1; 1]%N)
  (zeros F [:: 2; 0; 0; 1]%N) (zeros F [:: 2; 0; 0; 1; 1]%N).
Let ys : seq (nmeas F) := [:: NMeas (ND [:: 1%N] (fun=> 1)) [:: false]; NMeas (ND [:: 1%N] (fun=> 2%:R)) [:: false]; NMeas (ND [:: 1%N] (fun=> 0)) [:: true]].

(** The same model with a [Q] that does not broadcast with the stack. *)
Let bad : ndmodel F := NDModel
  (NModel (nm_f (nm_md dm)) (nm_df_dx (nm_md dm)) (fun _ _ => zeros F [:: 3; 1; 1]%N) (nm_h (nm_md dm)) (nm_dh_dx (nm_md dm)) (nm_R (nm_md dm)))
  (nm_df_dq dm) (nm_dQ_dq dm) (nm_dQ_dx dm) (nm_dh_dq dm) (nm_dR_dq dm) (nm_d2f_dq2 dm) (nm_d2f_dx2 dm) (nm_d2f_dx_dq dm)
  (nm_d2Q_dq2 dm) (nm_d2Q_dx2 dm) (nm_d2Q_dx_dq dm) (nm_d2h_dq2 dm) (nm_d2h_dx2 dm) (nm_d2h_dx_dq dm) (nm_d2R_dq2 dm).

Let s0 := ng_s (nh_g (started i0)).
Let Hdm : rdmodel [:: 2%N] dm mm. Proof. exact: C73_vectorise. Qed.
Let Hs0 : state_ok [:: 2%N] 1 s0. Proof. by []. Qed.
Let HP e : mat_at 1 1 (ns_P s0) e = 1%:M. Proof. by apply/matrixP => i j; rewrite !mxE !ord1. Qed.
Let two : (1%:R + 1 != 0 :> F). Proof. by rewrite (_ : 1%:R + 1 = 2%:R) ?pnatr_eq0 // -natr1. Qed.

Example C87_nonvacuous :
  [/\ (forall k X, lst (nm_f (nm_md dm) k X) != 0%N), size (shape (nm_R (nm_md dm))) = 2%N & lst (i_x i0) != 0%N] /\
  exists st l, [/\ ob_init 1 1 1 i0 (@no_attrs F) = (Ok tt, st), between 1 1 1 (started i0) st & (ob_filter dm ys st).1 = Ok l].
Proof.
have H1 k X : lst (nm_f (nm_md dm) k X) != 0%N by rewrite /dm /lst /=; rewrite last_cat.
split; first by [].
have := @C87_init F 1 1 1 i0 (@no_attrs F) isT.
rewrite two /= => -[st [E Hb]].
have [l Hl] : exists r, nd_filter (nd_ukf 1 (nm_md dm) 1 1 (@nd_chol F) (@nd_chol F)) s0 ys = Ok r.
  have Hys : List.Forall (meas_ok 1) ys by do 3 constructor=> //.
  apply: (C73_ukf_total (rd_md Hdm) Hs0 Hys (@lifts_chol F [:: 2%N] 1) (@lifts_chol F [:: 2%N] 1)) ; try exact: ler01; try (by rewrite addr_gt0 // ltr01).
  by move=> e He; rewrite HP; split=> *; first [exact: chol_is_root | exact: pd1].
exists st, l.1; split=> //.
apply: (@C87_filter_value F 1 dm 1 1 _ _ _ s0 ys st l.1 l.2) => //; last by rewrite Hl; case: l {Hl}.
exact: (between1_between0 (between_between1 Hb)).
Qed.

(** [predict] raises [ValueError] after it has changed the time and the mean. *)
Example C87_predict_case :
  exists st st' x, [/\ ob_init 1 1 1 i0 (@no_attrs F) = (Ok tt, st), ob_predict bad st = (Err ValueError, st'),
    st' Self "k"%string = Some (VN F 1), st' Self "x"%string = Some (VA x) & st' Self "Px"%string = st Self "Px"%string].
Proof.
have := @C87_init F 1 1 1 i0 (@no_attrs F) isT.
rewrite two /= => -[st [E Hb]].
have Hv : vec (ni := 1) (cs := [:: 1%N]) [:: 2%N] 1 (fun X : nd => Ok (nm_f (nm_md dm) 0 X)) (fun e x j => md_f (dm_md (mm e)) 0 x 0 j).
  move=> X XM HX; exists (nm_f (nm_md dm) 0 X); split=> //.
  by have [_ H] := rm_f (rd_md Hdm) 0; apply: H.
have Hr1 : rV [:: 2%N] 1%N (ns_x s0) (row_at 1 (ns_x s0)) by apply: rV_at.
have Hr2 : rM [:: 2%N] 1%N 1%N (ns_P s0) (mat_at 1 1 (ns_P s0)) by apply: rM_at.
have := nd_transform_sim (@lifts_chol F [:: 2%N] 1) Hr1 Hr2 Hv; have := @C87_predict_raises F 1 bad 1 1 _ st Hb.
have -> : nm_f (nm_md bad) = nm_f (nm_md dm) by [].
rewrite /sim -/s0; case: (nd_transform _ _ _ _ _ _) => [u|x] H; last first.
  case=> e _; rewrite /transform HP.
  have [|S -> _] // := @chol_is_root F 1 (((1%:R + 1) : F) *: 1%:M).
  by apply: pdZ; [apply: addr_gt0; exact: ltr01|exact: pd1].
move=> [m [_ [_ _ _ _ HPo]]].
have [|st' [E1 [K1 K2 K3 _ _]]] := H ValueError.
  by rewrite /nd_add /map2 (proj1 HPo).
by exists st, st', (nu_o u); split=> //; rewrite K3; have [_ _ [_ _ -> _] _ _] := Hb.
Qed.
End Case.
