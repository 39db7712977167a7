(** C91: the mixed partial derivatives of the merit, and a concrete case. *)
From Coq Require Import String Reals.
From Coquelicot Require Import Coquelicot.
From Verif Require Import Py.
From mathcomp Require Import all_ssreflect all_algebra.
From Verif Require Import RealField McRing MxCalc KalModel PsdLemmas KalLemmas KalDiffModel CholDiffLemmas PropsPem PropsPemDiff PropsHessSym.
Set Implicit Arguments.
Unset Strict Implicit.
Unset Printing Implicit Defensive.
Import Order.TTheory GRing.Theory Num.Theory.
Local Open Scope ring_scope.

(** With C44: the merit can be differentiated in either order. *)
Theorem C91_mixed nx ny nq (dm : 'rV[RF]_nq -> dmodel RF nx ny nq) X U (st : start nx nq) kp kc k ys :
  diff_model dm X U -> diff_model2 dm X U -> open_model X U -> diff_start U st -> diff_start2 U st ->
  forall q h, regular dm X U st kp kc k ys q -> hessian dm st kp kc k ys q = Ok h ->
  sym_model (dm q) -> sym2 (d2_x (i_d2 st q)) -> sym2 (d2_P (i_d2 st q)) -> sym2 (i_d2L st q) ->
  forall a b, exists (d : RF) (Gb Ga : R -> RF),
    [/\ near (0 : RF) (fun r => partial (merit dm st kp kc k ys) (q + (r : RF) *: delta_mx 0 a) b (Gb r)), sderiv Gb (0 : RF) d,
        near (0 : RF) (fun r => partial (merit dm st kp kc k ys) (q + (r : RF) *: delta_mx 0 b) a (Ga r)) & sderiv Ga (0 : RF) d].
Proof.
move=> H1 H2 H3 H4 H5 q h Rq Eh SM Sx SP SL a b.
have E := C91_symmetric (h := HS (gstart st k q) (i_d2 st q) (i_d2L st q)) SM Sx SP SL Eh.
have [Gb [N1 D1]] := C44_hessian H1 H2 H3 H4 H5 Rq Eh a b.
have [Ga [N2 D2]] := C44_hessian H1 H2 H3 H4 H5 Rq Eh b a.
by exists (h a b), Gb, Ga; split=> //; rewrite (E a b).
Qed.

(** [x' = p x + q], [y = x + p q], at [p = 2], [q = 3], with unit
    covariances. *)
Section Case.
Notation c z := (const_mx z : 'rV[RF]_1).
Definition hs_dm : dmodel RF 1 1 2 :=
  DModel (Model (fun _ x => 2%:R *: x + c 3%:R) (fun _ _ => 2%:R%:M) (fun _ _ => 1%:M) (fun _ x => x + c 6%:R) (fun _ _ => 1%:M) 1%:M)
    (fun _ x a => if a == 0 then x else c 1) (fun _ _ _ => 0) (fun _ _ _ => 0)
    (fun _ _ a => if a == 0 then c 3%:R else c 2%:R) (fun _ => 0)
    (fun _ _ _ _ => 0) (fun _ _ _ _ => 0) (fun _ _ a _ => if a == 0 then c 1 else 0)
    (fun _ _ _ _ => 0) (fun _ _ _ _ => 0) (fun _ _ _ _ => 0)
    (fun _ _ a b => if a == b then 0 else c 1) (fun _ _ _ _ => 0) (fun _ _ _ _ => 0) (fun _ _ => 0).
Definition hs_start : hstate RF 1 2 :=
  HS (GS (FS 0 0 1%:M) 0 (DS (fun _ => 0) (fun _ => 0)) (fun _ => 0)) (D2S (fun _ _ => 0) (fun _ _ => 0)) (fun _ _ => 0).

Example C91_nonvacuous : [/\ sym_model hs_dm, sym2 (d2_x (h_d2 hs_start)), sym2 (d2_P (h_d2 hs_start)), sym2 (h_d2L hs_start) &
  forall ys, exists H, pem_hessian hs_dm ln 1 1 hs_start ys = Ok H].
Proof.
split=> //; first by split=> //= _ _ a b; rewrite eq_sym.
move=> ys; have [l _ E] := @C42_total 1 1 (dm_md hs_dm) 1 1 (@chol RF 1) (@chol RF 1) (g_s (h_g hs_start)) (g_L (h_g hs_start)) ys
    ler01 (ltr_paddr ler01 ltr01) (@chol_is_root RF 1) ler01 (ltr_paddr ler01 ltr01) (@chol_is_root RF 1) (pd1 _ _) (fun _ _ => pd1 _ _) (pd1 _ _).
have [g' Eg _] := @grad_total _ _ _ _ hs_dm ln 1 1 (fun _ _ => trmx1 _ _) (trmx1 _ _) (h_g hs_start) ys _ (trmx1 _ _) E.
move: Eg; rewrite -(hess_loopE hs_dm ln 1 1 hs_start ys) /pem_hessian.
by case: (hess_loop _ _ _ _ _ _) => [h'|//] _; eexists.
Qed.
End Case.
