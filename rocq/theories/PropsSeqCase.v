(** C90: concrete cases. *)
From Verif Require Import Py.
From mathcomp Require Import all_ssreflect all_algebra.
From Verif Require Import PsdLemmas KalModel CholLemmas GainLemmas KalLemmas UtLemmas SeqLemmas PropsSeq.
Set Implicit Arguments.
Unset Strict Implicit.
Unset Printing Implicit Defensive.
Import Order.TTheory GRing.Theory Num.Theory.
Local Open Scope ring_scope.

(** Two sensors of one state, with noises of correlation [b / (1 + b)]. *)
Section Case.
Variable F : rcfType.
Definition rr (b : F) : 'M[F]_2 := 1%:M + b *: const_mx 1.
Definition md2 (b : F) : model F 1 2 :=
  Model (fun _ x => x) (fun _ _ => 1%:M) (fun _ _ => 1%:M) (fun _ x => x *m const_mx 1 + 0) (fun _ _ => const_mx 1) (rr b).
Definition s0 : fstate F 1 := FS 0 0 1%:M.
Definition y0 : meas F 2 := Meas (\row_i (i.+1)%:R) set0.

Lemma pd_rr b : 0 <= b -> pd (rr b).
Proof.
move=> b0; rewrite /rr addrC; apply: psd_pdD; last exact: pd1.
have -> : const_mx 1 = (const_mx 1 : 'rV[F]_2)^T *m 1%:M *m (const_mx 1 : 'rV[F]_2).
  by apply/matrixP => i j; rewrite mulmx1 !mxE big_ord1 !mxE mulr1.
apply: psdZ => //; exact: psd_congT (pd_psd (pd1 _ _)).
Qed.
Lemma wt1 b (i : 'I_2) : 0 <= b -> wt (rr b) [set i] = (1 + b)^-1 *: proj F [set i].
Proof.
move=> b0; have b1 : 1 + b != 0 by rewrite gt_eqF // ltr_paddr // ltr01.
symmetry; apply: wt_char; first exact: pd_rr.
  by rewrite -scalemxAr -scalemxAl !projM !setIid.
apply/matrixP => k l; rewrite -!scalemxAl /proj mul_diag_mx mul_mx_diag !mxE !inE.
case: (eqVneq k i) => [->|] /=; last by move=> _; rewrite !mul0r mulr0 mul0rn.
case: (eqVneq l i) => _ /=; last by rewrite !mulr0.
by rewrite !mulr1 mul1r mulVf.
Qed.
Lemma cpc (i : 'I_2) : (const_mx 1 : 'M[F]_(1, 2)) *m proj F [set i] *m (const_mx 1)^T = 1%:M.
Proof.
apply/matrixP => a b; rewrite !ord1 /proj mul_mx_diag !mxE !big_ord_recl big_ord0 !mxE !inE.
by case: i => [[|[|//]] Hi]; rewrite /= !(mulr1, mul1r, addr0, add0r).
Qed.

Example C90_nonvacuous : exists s1 oA s2 oB,
  [/\ ekf_correct (md2 0) s0 (keep [set 0] y0) = Ok (s1, oA), ekf_correct (md2 0) s1 (keep [set 1] y0) = Ok (s2, oB),
      invmx (fs_P s1) = 2%:R%:M & invmx (fs_P s2) = 3%:R%:M] /\
  [/\ pd (md_R (md2 0)), forall i j, i != j -> md_R (md2 0) i j = 0 & pd (fs_P s0)].
Proof.
have PR := pd_rr (lexx 0); have P0 := pd1 F 1.
have [s1 [oA [E1 [_ p1 P1 _ _ _]]]] := info_ekf (md := md2 0) (C := fun=> const_mx 1) (d := fun=> 0) (fun _ _ => erefl) (fun _ _ => erefl) PR (keep [set 0] y0) (P0 : pd (fs_P s0)).
have [s2 [oB [E2 [_ p2 P2 _ _ _]]]] := info_ekf (md := md2 0) (C := fun=> const_mx 1) (d := fun=> 0) (fun _ _ => erefl) (fun _ _ => erefl) PR (keep [set 1] y0) p1.
have act A : active (keep A y0) = A by rewrite active_keep /active /= setC0 setTI.
move: P1 P2; rewrite !act !wt1 // addr0 invr1 !scale1r !cpc /= invmx1 => P1; rewrite P1 => P2.
exists s1, oA, s2, oB; split; split=> //.
- by rewrite P1 -[2%:R]/((1 + 1)%N%:R) natrD raddfD.
- by rewrite P2 -[3%:R]/((1 + 1 + 1)%N%:R) !natrD !raddfD.
by move=> i j /negbTE ne; rewrite !mxE ne mul0r addr0.
Qed.

(** With correlated noises the two can differ. *)
Theorem C90_correlated : exists s1 oA s2 oB s3 o,
  [/\ ekf_correct (md2 1) s0 (keep [set 0] y0) = Ok (s1, oA), ekf_correct (md2 1) s1 (keep [set 1] y0) = Ok (s2, oB),
      ekf_correct (md2 1) s0 y0 = Ok (s3, o) & fs_P s2 <> fs_P s3].
Proof.
have PR := pd_rr (@ler01 F); have P0 := pd1 F 1.
have [s1 [oA [E1 [_ p1 P1 _ _ _]]]] := info_ekf (md := md2 1) (C := fun=> const_mx 1) (d := fun=> 0) (fun _ _ => erefl) (fun _ _ => erefl) PR (keep [set 0] y0) (P0 : pd (fs_P s0)).
have [s2 [oB [E2 [_ p2 P2 _ _ _]]]] := info_ekf (md := md2 1) (C := fun=> const_mx 1) (d := fun=> 0) (fun _ _ => erefl) (fun _ _ => erefl) PR (keep [set 1] y0) p1.
have [s3 [o [E3 [_ p3 P3 _ _ _]]]] := info_ekf (md := md2 1) (C := fun=> const_mx 1) (d := fun=> 0) (fun _ _ => erefl) (fun _ _ => erefl) PR y0 (P0 : pd (fs_P s0)).
have act A : active (keep A y0) = A by rewrite active_keep /active /= setC0 setTI.
have actT : active y0 = setT by rewrite /active /= setC0.
move: P1 P2 P3; rewrite !act actT !wt1 ?ler01 // -!scalemxAr -!scalemxAl !cpc /= invmx1 => P1; rewrite P1 => P2 P3.
exists s1, oA, s2, oB, s3, o; split=> // E; move: P2; rewrite E P3.
have n3 : (3%:R : F) != 0 by rewrite pnatr_eq0.
have -> : wt (rr 1) setT = 1%:M - 3%:R^-1 *: const_mx 1.
  have pT : proj F [set: 'I_2] = 1%:M by apply/matrixP => i j; rewrite !mxE inE.
  symmetry; apply: wt_char; rewrite ?pT ?mulmx1 ?mul1mx //.
  have JJ : (const_mx 1 : 'M[F]_2) *m (const_mx 1 : 'M[F]_2) = 2%:R *: (const_mx 1 : 'M[F]_2).
    by apply/matrixP => i j; rewrite !mxE !big_ord_recl big_ord0 !mxE !mulr1 addr0 -(natrD F 1 1).
  have c3 : 3%:R^-1 + 3%:R^-1 * 2%:R = 1 :> F by rewrite -{1}[3%:R^-1]mulr1 -mulrDr -(natrD F 1 2) mulVf.
  rewrite /rr scale1r mulmxDr mulmx1 mulmxBl mul1mx -scalemxAl JJ scalerA -[RHS]addr0 -addrA; congr (_ + _).
  by rewrite addrCA -opprD -scalerDl c3 scale1r subrr.
have Z : (const_mx 1 : 'M[F]_(1, 2)) *m (1%:M - 3%:R^-1 *: const_mx 1) *m (const_mx 1 : 'M[F]_(1, 2))^T = (2%:R / 3%:R)%:M :> 'M[F]_1.
  apply/matrixP => i j; rewrite !ord1 !mxE !big_ord_recl !big_ord0 !mxE !big_ord_recl !big_ord0 !mxE /= !(mulr1, mul1r, addr0, add0r, mulr0n, mulr1n).
  have one : 1 = 3%:R^-1 + 3%:R^-1 + 3%:R^-1 :> F by rewrite -[LHS](mulVf n3) mulr_natr; move: (3%:R^-1) => t; rewrite !mulrS addr0 addrA.
  have one' : 1 - 3%:R^-1 = 3%:R^-1 + 3%:R^-1 :> F by rewrite {1}one addrK.
  by rewrite one' addrK addKr mulr_natl mulr2n.
rewrite Z -addrA => /(addrI _) /matrixP /(_ 0 0); rewrite !mxE !mulr1.
have -> : (1 + 1)^-1 + (1 + 1)^-1 = 1 :> F by rewrite -mulr2n -mulr_natl -(natrD F 1 1) mulfV // pnatr_eq0.
by rewrite eqxx mulr1n => /(canRL (mulfVK n3)) /eqP; rewrite mul1r eqr_nat.
Qed.
End Case.
