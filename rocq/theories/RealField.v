(** The standard library's real numbers as a mathcomp real closed field.
    Nothing in /repo corresponds to this file: it lets the matrix and
    polynomial models (mathcomp) be used over the same reals as the
    derivative theorems (Coquelicot). *)
From Coq Require Import Reals ClassicalEpsilon FunctionalExtensionality Lra.
From mathcomp Require Import all_ssreflect all_algebra.
Set Implicit Arguments.
Unset Strict Implicit.
Unset Printing Implicit Defensive.
Import Order.TTheory GRing.Theory Num.Theory.

Local Notation R := Rdefinitions.R.
Local Delimit Scope R_scope with RR.

Definition eqr (x y : R) : bool := if Req_EM_T x y then true else false.
Lemma eqrP : Equality.axiom eqr.
Proof. by move=> x y; rewrite /eqr; case: Req_EM_T => ?; constructor. Qed.
Definition R_eqMixin := EqMixin eqrP.
Canonical R_eqType := Eval hnf in EqType R R_eqMixin.

Fact inhR : inhabited R. Proof. by constructor; exact: R0. Qed.
Definition pickR (P : pred R) (n : nat) : option R := let x := epsilon inhR P in if P x then Some x else None.
Fact pickR_some P n x : pickR P n = Some x -> P x.
Proof. by rewrite /pickR; case E: (P _) => // -[<-]. Qed.
Fact pickR_ex (P : pred R) : (exists x : R, P x) -> exists n, pickR P n.
Proof. by move=> H; exists 0%N; rewrite /pickR (epsilon_spec inhR P H). Qed.
Fact pickR_ext (P Q : pred R) : P =1 Q -> pickR P =1 pickR Q.
Proof. by move=> H n; have -> : P = Q by apply: functional_extensionality. Qed.
Definition R_choiceMixin : choiceMixin R := Choice.Mixin pickR_some pickR_ex pickR_ext.
Canonical R_choiceType := Eval hnf in ChoiceType R R_choiceMixin.

Fact RplusA : associative Rplus. Proof. by move=> x y z; rewrite Rplus_assoc. Qed.
Definition R_zmodMixin := ZmodMixin RplusA Rplus_comm Rplus_0_l Rplus_opp_l.
Canonical R_zmodType := Eval hnf in ZmodType R R_zmodMixin.

Fact RmultA : associative Rmult. Proof. by move=> x y z; rewrite Rmult_assoc. Qed.
Fact R1_neq_0 : R1 != R0. Proof. by apply/eqP; exact: R1_neq_R0. Qed.
Definition R_ringMixin := RingMixin RmultA Rmult_1_l Rmult_1_r Rmult_plus_distr_r Rmult_plus_distr_l R1_neq_0.
Canonical R_ringType := Eval hnf in RingType R R_ringMixin.
Canonical R_comRingType := Eval hnf in ComRingType R Rmult_comm.

Definition unit_R (x : R) : bool := x != R0.
Lemma Rmul_inv_l : {in unit_R, left_inverse R1 Rinv Rmult}.
Proof. by move=> x /eqP H; apply: Rinv_l. Qed.
Lemma Rmul_inv_r : {in unit_R, right_inverse R1 Rinv Rmult}.
Proof. by move=> x /eqP H; apply: Rinv_r. Qed.
Lemma intro_unit_R (x y : R) : (y * x)%RR = R1 /\ (x * y)%RR = R1 -> unit_R x.
Proof. by move=> [+ _]; rewrite /unit_R; case: eqP => // ->; rewrite Rmult_0_r => H; case: R1_neq_R0. Qed.
Lemma Rinv_out : {in predC unit_R, Rinv =1 id}.
Proof. by move=> x; rewrite inE negbK => /eqP ->; exact: Rinv_0. Qed.
Definition R_unitRingMixin := UnitRingMixin Rmul_inv_l Rmul_inv_r intro_unit_R Rinv_out.
Canonical R_unitRingType := Eval hnf in UnitRingType R R_unitRingMixin.
Canonical R_comUnitRingType := Eval hnf in [comUnitRingType of R].

Lemma R_idomain (x y : R) : (x * y)%RR = R0 -> (x == R0) || (y == R0).
Proof. by move=> /Rmult_integral [] ->; rewrite eqxx ?orbT. Qed.
Canonical R_idomainType := Eval hnf in IdomainType R R_idomain.
Lemma R_field_mixin : GRing.Field.mixin_of [unitRingType of R].
Proof. by []. Qed.
Canonical R_fieldType := Eval hnf in FieldType R R_field_mixin.

Definition leR (x y : R) : bool := if Rle_dec x y then true else false.
Definition ltR (x y : R) : bool := if Rlt_dec x y then true else false.
Lemma leRP x y : reflect (Rle x y) (leR x y).
Proof. by rewrite /leR; case: Rle_dec => ?; constructor. Qed.
Lemma ltRP x y : reflect (Rlt x y) (ltR x y).
Proof. by rewrite /ltR; case: Rlt_dec => ?; constructor. Qed.

Fact normD x y : leR (Rabs (x + y)%RR) (Rabs x + Rabs y)%RR.
Proof. by apply/leRP; exact: Rabs_triang. Qed.
Fact addR_gt0 x y : ltR 0 x -> ltR 0 y -> ltR 0 (x + y)%RR.
Proof. by move=> /ltRP ? /ltRP ?; apply/ltRP; lra. Qed.
Fact normR0 x : Rabs x = R0 -> x = R0.
Proof. by move=> H; case: (Req_dec x 0) => // /Rabs_no_R0. Qed.
Fact leR_total x y : leR 0 x -> leR 0 y -> (leR x y) || (leR y x).
Proof. by move=> _ _; apply/orP; case: (Rle_dec x y) => H; [left|right]; apply/leRP; lra. Qed.
Fact normM : {morph Rabs : x y / (x * y)%RR}.
Proof. exact: Rabs_mult. Qed.
Fact leR_def x y : leR x y = (Rabs (y - x) == y - x)%RR.
Proof.
apply/leRP/eqP => [H|H]; first by apply: Rabs_right; lra.
by move: (Rabs_pos (y - x)); rewrite H; lra.
Qed.
Fact ltR_def x y : ltR x y = (y != x) && leR x y.
Proof.
apply/ltRP/andP => [H|[/eqP H /leRP H']]; last by lra.
by split; [apply/eqP; lra|apply/leRP; lra].
Qed.
Definition R_numMixin := NumMixin normD addR_gt0 normR0 leR_total normM leR_def ltR_def.
Canonical R_porderType := Eval hnf in POrderType ring_display R R_numMixin.
Canonical R_numDomainType := Eval hnf in NumDomainType R R_numMixin.
Canonical R_normedZmodType := Eval hnf in NormedZmodType R R R_numMixin.
Canonical R_numFieldType := Eval hnf in [numFieldType of R].
Lemma R_total : totalPOrderMixin R_porderType.
Proof. by move=> x y; apply/orP; case: (Rle_dec x y) => H; [left|right]; apply/leRP; lra. Qed.
Canonical R_latticeType := Eval hnf in LatticeType R R_total.
Canonical R_distrLatticeType := Eval hnf in DistrLatticeType R R_total.
Canonical R_orderType := Eval hnf in OrderType R R_total.
Canonical R_realDomainType := Eval hnf in [realDomainType of R].
Canonical R_realFieldType := Eval hnf in [realFieldType of R].

Lemma RleP (x y : R) : reflect (Rle x y) (x <= y)%O.
Proof. exact: leRP. Qed.
Lemma RltP (x y : R) : reflect (Rlt x y) (x < y)%O.
Proof. exact: ltRP. Qed.

Lemma horner_continuous (p : {poly R}) : continuity (horner p).
Proof.
elim/poly_ind: p => [|p c IH].
  apply: (continuity_const _) => x y; by rewrite !horner0.
have -> : horner (p * 'X + c%:P) = plus_fct (mult_fct (horner p) id) (fct_cte c).
  by apply: functional_extensionality => x; rewrite hornerMXaddC.
apply: continuity_plus; last exact: continuity_const.
by apply: continuity_mult => //; apply: derivable_continuous; exact: derivable_id.
Qed.

Lemma R_closed : Num.real_closed_axiom R_numDomainType.
Proof.
move=> p a b /RleP Hab /andP [/RleP Ha /RleP Hb].
case: (IVT_cor (horner p) a b (horner_continuous p) Hab).
  by have := Rmult_le_compat_r _ _ _ Hb Ha; rewrite [(0 * _)%RR]Rmult_0_l.
move=> x [[H1 H2] H3]; exists x; last by apply/rootP.
by apply/andP; split; apply/RleP.
Qed.
Canonical R_rcfType := Eval hnf in RcfType R R_closed.
Print Assumptions R_rcfType.
