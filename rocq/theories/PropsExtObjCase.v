(** C88: the loops are those of [ObjModel], and concrete cases. *)
From Coq Require Import String Ascii.
From Verif Require Import Py.
From mathcomp Require Import all_ssreflect all_algebra.
From Verif Require Import PsdLemmas KalModel KalLemmas KalDiffModel NpModel NpLemmas NdKalModel ObjModel ExtObjModel PropsExtObj.
From Verif Require Import NpOps NdTransLemmas NdFilterLemmas NdDiffLemmas PropsNdKal.
Set Implicit Arguments.
Unset Strict Implicit.
Unset Printing Implicit Defensive.
Import Order.TTheory GRing.Theory Num.Theory.
Local Open Scope ring_scope.

Section Case.
Variable F : rcfType.
Local Notation nd := (nd F).

Let mm (e : seq nat) : dmodel F 1 1 0 :=
  DModel (Model (fun _ x => (nth 0%N e 0%N).+1%:R *: x) (fun _ _ => (nth 0%N e 0%N).+1%:R%:M) (fun _ _ => 1%:M) (fun _ x => x) (fun _ _ => 1%:M) 1%:M)
    (fun _ _ _ => 0) (fun _ _ _ => 0) (fun _ _ _ => 0) (fun _ _ _ => 0) (fun _ => 0)
    (fun _ _ _ _ => 0) (fun _ _ _ _ => 0) (fun _ _ _ _ => 0) (fun _ _ _ _ => 0) (fun _ _ _ _ => 0) (fun _ _ _ _ => 0)
    (fun _ _ _ _ => 0) (fun _ _ _ _ => 0) (fun _ _ _ _ => 0) (fun _ _ => 0).
Let dm := vectorise [:: 2%N] mm 1%:M (fun=> 0 : 'M[F]_1) (fun _ _ => 0 : 'M[F]_1).
Let i0 : initial F := Initial 0 (ND [:: 2; 1]%N (fun i => (nth 0%N i 0%N)%:R)) (ND [:: 2; 1; 1]%N (fun=> 1))
  (zeros F [:: 2%N]) (zeros F [:: 2; 0]%N) (zeros F [:: 2; 0; 0]%N) (zeros F [:: 2; 0; 1]%N) (zeros F [:: 2; 0; 1; 1]%N)
  (zeros F [:: 2; 0; 0; 1]%N) (zeros F [:: 2; 0; 0; 1; 1]%N).
Let y0 : nmeas F := NMeas (ND [:: 1%N] (fun=> 1)) [:: false].
Let ym : nmeas F := NMeas (ND [:: 1%N] (fun=> 0)) [:: true].
Let ys : seq (nmeas F) := [:: ym; y0; y0].
Let bad : ndmodel F := NDModel
  (NModel (nm_f (nm_md dm)) (nm_df_dx (nm_md dm)) (fun _ _ => zeros F [:: 3; 1; 1]%N) (nm_h (nm_md dm)) (nm_dh_dx (nm_md dm)) (nm_R (nm_md dm)))
  (nm_df_dq dm) (nm_dQ_dq dm) (nm_dQ_dx dm) (nm_dh_dq dm) (nm_dR_dq dm) (nm_d2f_dq2 dm) (nm_d2f_dx2 dm) (nm_d2f_dx_dq dm)
  (nm_d2Q_dq2 dm) (nm_d2Q_dx2 dm) (nm_d2Q_dx_dq dm) (nm_d2h_dq2 dm) (nm_d2h_dx2 dm) (nm_d2h_dx_dq dm) (nm_d2R_dq2 dm).

Let s0 : nstate F := NS 0 (i_x i0) (i_Px i0).
Let Hs0 : state_ok [:: 2%N] 1 s0. Proof. by []. Qed.
Let HP e : mat_at 1 1 (ns_P s0) e = 1%:M. Proof. by apply/matrixP => i j; rewrite !mxE !ord1. Qed.
Let total zs : List.Forall (meas_ok 1) zs -> exists r, nd_filter (nd_ekf (nm_md dm)) s0 zs = Ok r.
Proof.
move=> Hz; have Hdm : rdmodel [:: 2%N] dm mm by exact: C73_vectorise.
apply: (C73_ekf_total (rd_md Hdm) Hs0 Hz) => e He; rewrite HP.
by split=> *; [exact: psd1 | exact: psd1 | exact: pd1].
Qed.
Let held : holds s0 (made i0). Proof. by []. Qed.
Let predicts : exists r, nd_ekf_predict (nm_md dm) s0 = Ok r.
Proof.
have [|r] := total (zs := [:: ym; ym]); first by do 2 constructor=> //.
cbn [nd_filter n_correct n_predict nd_ekf]; rewrite correct_masked //; cbn [bind fst snd].
by case: (nd_ekf_predict _ _) => [p|//]; exists p.
Qed.
Let corrects : exists r, nd_ekf_correct (nm_md dm) s0 y0 = Ok r.
Proof.
have [|r] := total (zs := [:: y0]); first by do 1 constructor=> //.
cbn [nd_filter n_correct n_predict nd_ekf].
by case: (nd_ekf_correct _ _ _) => [p|//]; exists p.
Qed.

(** A filter of two stacked states, the first of three measurements masked:
    [filter] returns, [pem_merit] raises [AttributeError] at the second
    measurement, [pem_gradient] [NameError] after the first prediction,
    [pem_merit] of masked measurements returns [L]. *)
Example C88_nonvacuous (log : F -> F) :
  [/\ (exists l, (dt_filter (ex_class dm log) ys (made i0)).1 = Ok l),
      (dt_pem_merit (ex_class dm log) ys (made i0)).1 = Err AttributeError,
      (dt_pem_gradient (ex_class dm log) ys (made i0)).1 = Err NameError,
      (dt_pem_merit (ex_class dm log) [:: ym; ym] (made i0)).1 = Ok (i_L i0) &
      (dt_pem_hessian (ex_class dm log) [:: y0] (made i0)).1 = Err AttributeError].
Proof.
split.
- have := C88_filter dm log ys held.
  have [|r ->] := total (zs := ys); first by do 3 constructor=> //.
  by case: r => l s' [E _]; exists l.
- have := @C88_merit F dm log i0 [::] s0 ys held; rewrite [find _ _]/=; cbv zeta.
  have [|r ->] := total (zs := take 2 ys); first by do 2 constructor=> //.
  by move=> ->.
- have -> := @C88_gradient F dm log i0 [::] s0 ys held; cbn [pem_outcome ys].
  by rewrite correct_masked //; have [r ->] := predicts.
- have := @C88_merit F dm log i0 [::] s0 [:: ym; ym] held; rewrite [find _ _]/=; cbv zeta.
  have [|r ->] := total (zs := take 3 [:: ym; ym]); first by do 2 constructor=> //.
  by move=> ->.
- have -> := @C88_hessian F dm log i0 [::] s0 [:: y0] held; cbn [pem_outcome].
  by have [r ->] := corrects.
Qed.

(** [predict] raises [ValueError] after it has changed the time and the mean. *)
Example C88_predict_case :
  exists st', [/\ ex_predict bad (made i0) = (Err ValueError, st'), st' Self "k"%string = Some (VN F 1),
    st' Self "x"%string = Some (VA (nm_f (nm_md dm) 0%N (i_x i0))) & st' Self "Px"%string = Some (VA (i_Px i0))].
Proof.
pose proof (@C88_predict_raises F bad s0 (made i0) held) as H; cbv zeta in H; revert H.
pose A : nd := nm_df_dx (nm_md bad) (ns_k s0) (ns_x s0); have HA : shape A = [:: 2; 1; 1]%N by [].
have step w (B C : nd) : shape B = [:: 2; 1; 1]%N -> shape C = [:: 2; 1; 1]%N -> w = "...yi,...iz"%string \/ w = "...iy,...iz"%string ->
    exists D, einsum w [:: B; C] = Ok D /\ shape D = [:: 2; 1; 1]%N.
  case: B => sB dB; cbn [shape] => ->; case: C => sC dC; cbn [shape] => -> Hw.
  by case: Hw => ->; eexists; split; reflexivity.
have [Pxf [-> S1]] := step "...yi,...iz"%string (ns_P s0) A erefl HA (or_introl erefl); cbn [bind].
have [Pf [-> S2]] := step "...iy,...iz"%string A Pxf HA S1 (or_intror erefl).
cbn [bind] => /(_ ValueError) [|st' [E [[K1 K2 K3] _ _ _ _]]].
  by rewrite /nd_add /map2 S2.
by exists st'.
Qed.
End Case.

(** The loops of [ObjModel] are those of base.py for the class of the
    unscented filter. *)
Definition ob_class F (dm : ndmodel F) (log : F -> F) : dtclass F :=
  DTClass (ob_predict dm) (ob_prediction_diff dm) (ob_prediction_diff2 dm) (@ob_prediction_crosscov F)
    (ob_correct dm) (ob_correction_diff dm) (ob_correction_diff2 dm) (ob_update_likelihood log) (@ob_likelihood_diff F) (@ob_likelihood_diff2 F).
Theorem C88_loops F (dm : ndmodel F) log ys (c := ob_class dm log) :
  [/\ ob_filter dm ys = dt_filter c ys, ob_smooth dm ys = dt_smooth c ys, ob_pem_merit dm log ys = dt_pem_merit c ys,
      ob_pem_gradient dm log ys = dt_pem_gradient c ys & ob_pem_hessian dm log ys = dt_pem_hessian c ys].
Proof. by []. Qed.
