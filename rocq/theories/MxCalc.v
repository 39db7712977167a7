(** Derivatives of matrix-valued functions of a real variable, entry by
    entry, with matrices over the reals as a real closed field. *)
From Coq Require Import String Reals Lra.
From Coquelicot Require Import Coquelicot.
From Verif Require Import Py.
From mathcomp Require Import all_ssreflect all_fingroup all_algebra.
From Verif Require Import RealField.
Set Implicit Arguments.
Unset Strict Implicit.
Unset Printing Implicit Defensive.
Import GroupScope Order.TTheory GRing.Theory Num.Theory.
Local Open Scope ring_scope.
Local Delimit Scope R_scope with RR.

Notation RF := R_rcfType.

(** Scalar functions: Coquelicot's derivative. *)
Definition sderiv (f : R -> RF) (t : R) (d : RF) : Prop := @is_derive R_AbsRing R_NormedModule f t d.

(** Eventually near [t]. *)
Notation near t P := (@locally R_UniformSpace t P).

Lemma near_mp t (P Q : R -> Prop) : near t P -> (forall s, P s -> Q s) -> near t Q.
Proof. by move=> H I; apply: filter_imp I H. Qed.
Lemma near_and t (P Q : R -> Prop) : near t P -> near t Q -> near t (fun s => P s /\ Q s).
Proof. exact: filter_and. Qed.
Lemma near_all t (P : R -> Prop) : (forall s, P s) -> near t P.
Proof. by move=> H; apply: filter_forall. Qed.
Lemma near_at t (P : R -> Prop) : near t P -> P t.
Proof. exact: locally_singleton. Qed.
Lemma near_fin (I : finType) t (P : I -> R -> Prop) : (forall i, near t (P i)) -> near t (fun s => forall i, P i s).
Proof.
move=> H; have G : forall l : seq I, near t (fun s => forall i, i \in l -> P i s).
  elim=> [|i l IH]; first by apply: near_all.
  apply: near_mp (near_and (H i) IH) _ => s [H1 H2] j; rewrite inE => /orP [/eqP ->|] //; exact: H2.
apply: near_mp (G (enum I)) _ => s Hs i; apply: Hs; exact: mem_enum.
Qed.

Section Scalar.
Implicit Types (f g : R -> RF) (t : R) (a b d : RF).

Lemma sderiv_eq f t a b : sderiv f t a -> a = b -> sderiv f t b.
Proof. by move=> H <-. Qed.
Lemma sderiv_unique f t a b : sderiv f t a -> sderiv f t b -> a = b.
Proof. by move=> Ha Hb; rewrite -(is_derive_unique _ _ _ Ha) -(is_derive_unique _ _ _ Hb). Qed.
Lemma sderiv_near f g t d : near t (fun s => f s = g s) -> sderiv f t d -> sderiv g t d.
Proof. exact: is_derive_ext_loc. Qed.
Lemma sderiv_ext f g t d : (forall s, f s = g s) -> sderiv f t d -> sderiv g t d.
Proof. by move=> E; apply: sderiv_near; apply: near_all. Qed.
Lemma sderiv_const c t : sderiv (fun _ => c) t 0.
Proof. exact: is_derive_const. Qed.
Lemma sderiv_id t : sderiv (fun s => s) t 1.
Proof. exact: is_derive_id. Qed.
Lemma sderivD f g t a b : sderiv f t a -> sderiv g t b -> sderiv (fun s => f s + g s) t (a + b).
Proof. exact: is_derive_plus. Qed.
Lemma sderivN f t a : sderiv f t a -> sderiv (fun s => - f s) t (- a).
Proof. exact: is_derive_opp. Qed.
Lemma sderivB f g t a b : sderiv f t a -> sderiv g t b -> sderiv (fun s => f s - g s) t (a - b).
Proof. by move=> A B; apply: sderivD => //; apply: sderivN. Qed.
Lemma sderivM f g t a b : sderiv f t a -> sderiv g t b -> sderiv (fun s => f s * g s) t (a * g t + f t * b).
Proof. by move=> A B; apply: (is_derive_mult f g t a b A B Rmult_comm). Qed.
Lemma sderiv_sum (I : Type) (l : seq I) (P : pred I) (f : I -> R -> RF) (d : I -> RF) t :
  (forall i, P i -> sderiv (f i) t (d i)) -> sderiv (fun s => \sum_(i <- l | P i) f i s) t (\sum_(i <- l | P i) d i).
Proof.
move=> H; elim: l => [|i l IH].
  by rewrite big_nil; apply: sderiv_ext (sderiv_const 0 t) => s; rewrite big_nil.
rewrite big_cons; case E: (P i).
  apply: sderiv_ext (sderivD (H i E) IH) => s; by rewrite big_cons E.
by apply: sderiv_ext IH => s; rewrite big_cons E.
Qed.
Lemma sderiv_prod_ex (I : Type) (l : seq I) (f : I -> R -> RF) t :
  (forall i, exists d, sderiv (f i) t d) -> exists d, sderiv (fun s => \prod_(i <- l) f i s) t d.
Proof.
move=> H; elim: l => [|i l [d IH]].
  by exists 0; apply: sderiv_ext (sderiv_const 1 t) => s; rewrite big_nil.
have [e He] := H i; eexists; apply: sderiv_ext (sderivM He IH) => s; by rewrite big_cons.
Qed.
Lemma sderivV f t a : f t != 0 -> sderiv f t a -> sderiv (fun s => (f s)^-1) t (- a / f t ^+ 2).
Proof.
move=> /eqP nz A; have H := is_derive_inv f t a A nz.
have E : (- a / f t ^+ 2 : RF) = (- a / f t ^ 2)%RR.
  have E2 : ((f t : R) ^ 2)%RR = ((f t : R) * (f t : R))%RR by ring.
  by rewrite E2 expr2.
by rewrite /sderiv E; exact: H.
Qed.
Lemma sderiv_cont f t a (P : RF -> Prop) : sderiv f t a -> @locally R_UniformSpace (f t) P -> near t (fun s => P (f s)).
Proof. by move=> A; apply: (ex_derive_continuous f t); exists a. Qed.
Lemma sderiv_gt0 f t a : sderiv f t a -> 0 < f t -> near t (fun s => 0 < f s).
Proof.
move=> A /RltP p; apply: (sderiv_cont (P := fun x => 0 < x) A).
apply: near_mp (open_gt 0%RR (f t) p) _ => s H; exact/RltP.
Qed.
Lemma sderiv_neq0 f t a : sderiv f t a -> f t != 0 -> near t (fun s => f s != 0).
Proof.
move=> A /eqP p; apply: (sderiv_cont (P := fun x => x != 0) A).
apply: near_mp (open_neq 0%RR (f t) p) _ => s H; exact/eqP.
Qed.
Lemma sqrtE (x : R) : 0 <= x -> Num.sqrt (x : RF) = R_sqrt.sqrt x.
Proof.
move=> x0; have /RleP x0' := x0.
have E : x = R_sqrt.sqrt x ^+ 2 :> RF by rewrite expr2; apply: esym; exact: sqrt_sqrt.
rewrite {1}E sqrtr_sqr ger0_norm //; exact/RleP/sqrt_pos.
Qed.
Lemma sderiv_sqrt f t a : 0 < f t -> sderiv f t a -> exists d, sderiv (fun s => Num.sqrt (f s)) t d.
Proof.
move=> p A; exists (a * / (2 * R_sqrt.sqrt (f t)))%RR.
apply: (@sderiv_near (fun s => R_sqrt.sqrt (f s))).
  by apply: near_mp (sderiv_gt0 A p) _ => s /ltW H; rewrite sqrtE.
by have /RltP := p => p'; exact: (is_derive_sqrt f t a A p').
Qed.
Lemma sderiv_ln f t a : 0 < f t -> sderiv f t a -> sderiv (fun s => ln (f s)) t (a / f t).
Proof.
move=> /RltP p A; have H := is_derive_comp ln f t (/ f t)%RR a (is_derive_ln _ p) A; exact: H.
Qed.
End Scalar.

(** * Matrices *)
Definition mderiv m n (M : R -> 'M[RF]_(m, n)) (t : R) (D : 'M[RF]_(m, n)) : Prop :=
  forall i j, sderiv (fun s => M s i j) t (D i j).

Section Matrix.
Variable t : R.

Lemma mderiv_eq m n (M : R -> 'M[RF]_(m, n)) D E : mderiv M t D -> D = E -> mderiv M t E.
Proof. by move=> H <-. Qed.
Lemma mderiv_unique m n (M : R -> 'M[RF]_(m, n)) D E : mderiv M t D -> mderiv M t E -> D = E.
Proof. by move=> H1 H2; apply/matrixP => i j; apply: sderiv_unique (H1 i j) (H2 i j). Qed.
Lemma mderiv_near m n (M N : R -> 'M[RF]_(m, n)) D : near t (fun s => M s = N s) -> mderiv M t D -> mderiv N t D.
Proof. by move=> E H i j; apply: sderiv_near (H i j); apply: near_mp E _ => s ->. Qed.
Lemma mderiv_ext m n (M N : R -> 'M[RF]_(m, n)) D : (forall s, M s = N s) -> mderiv M t D -> mderiv N t D.
Proof. by move=> E; apply: mderiv_near; apply: near_all. Qed.
Lemma mderiv_const m n (C : 'M[RF]_(m, n)) : mderiv (fun _ => C) t 0.
Proof. by move=> i j; apply: sderiv_eq (sderiv_const _ _) _; rewrite mxE. Qed.
Lemma mderivD m n (M N : R -> 'M[RF]_(m, n)) D E : mderiv M t D -> mderiv N t E -> mderiv (fun s => M s + N s) t (D + E).
Proof.
move=> H1 H2 i j; rewrite mxE; apply: sderiv_ext (sderivD (H1 i j) (H2 i j)) => s; by rewrite mxE.
Qed.
Lemma mderivN m n (M : R -> 'M[RF]_(m, n)) D : mderiv M t D -> mderiv (fun s => - M s) t (- D).
Proof. by move=> H1 i j; rewrite mxE; apply: sderiv_ext (sderivN (H1 i j)) => s; rewrite mxE. Qed.
Lemma mderivB m n (M N : R -> 'M[RF]_(m, n)) D E : mderiv M t D -> mderiv N t E -> mderiv (fun s => M s - N s) t (D - E).
Proof. by move=> A B; apply: mderivD => //; apply: mderivN. Qed.
Lemma mderiv_sum m n (I : Type) (l : seq I) (P : pred I) (f : I -> R -> 'M[RF]_(m, n)) d :
  (forall i, P i -> mderiv (f i) t (d i)) -> mderiv (fun s => \sum_(i <- l | P i) f i s) t (\sum_(i <- l | P i) d i).
Proof.
move=> H i j; rewrite summxE; apply: (sderiv_ext (f := fun s => \sum_(k <- l | P k) f k s i j)).
  by move=> s; rewrite summxE.
by apply: sderiv_sum => k Pk; apply: H.
Qed.
Lemma mderivM m n p (M : R -> 'M[RF]_(m, n)) (N : R -> 'M[RF]_(n, p)) D E :
  mderiv M t D -> mderiv N t E -> mderiv (fun s => M s *m N s) t (D *m N t + M t *m E).
Proof.
move=> H1 H2 i j; rewrite !mxE -big_split /=.
apply: (sderiv_ext (f := fun s => \sum_k M s i k * N s k j)) => [s|]; first by rewrite mxE.
by apply: sderiv_sum => k _; apply: sderivM.
Qed.
Lemma mderiv_tr m n (M : R -> 'M[RF]_(m, n)) D : mderiv M t D -> mderiv (fun s => (M s)^T) t D^T.
Proof. by move=> H i j; rewrite mxE; apply: sderiv_ext (H j i) => s; rewrite mxE. Qed.
Lemma mderivZs m n (f : R -> RF) (M : R -> 'M[RF]_(m, n)) d D :
  sderiv f t d -> mderiv M t D -> mderiv (fun s => f s *: M s) t (d *: M t + f t *: D).
Proof.
move=> H1 H2 i j; rewrite !mxE.
by apply: sderiv_ext (sderivM H1 (H2 i j)) => s; rewrite mxE.
Qed.
Lemma mderivZ m n c (M : R -> 'M[RF]_(m, n)) D : mderiv M t D -> mderiv (fun s => c *: M s) t (c *: D).
Proof. by move=> H; apply: mderiv_eq (mderivZs (sderiv_const c t) H) _; rewrite scale0r add0r. Qed.
Lemma mderivMl m n p (C : 'M[RF]_(m, n)) (N : R -> 'M[RF]_(n, p)) E : mderiv N t E -> mderiv (fun s => C *m N s) t (C *m E).
Proof. by move=> H; apply: mderiv_eq (mderivM (mderiv_const C) H) _; rewrite mul0mx add0r. Qed.
Lemma mderivMr m n p (C : 'M[RF]_(n, p)) (M : R -> 'M[RF]_(m, n)) D : mderiv M t D -> mderiv (fun s => M s *m C) t (D *m C).
Proof. by move=> H; apply: mderiv_eq (mderivM H (mderiv_const C)) _; rewrite mulmx0 addr0. Qed.
Lemma mderiv_entries m n (M : R -> 'M[RF]_(m, n)) :
  (forall i j, exists d, sderiv (fun s => M s i j) t d) -> exists D, mderiv M t D.
Proof.
move=> H; exists (\matrix_(i, j) Derive (fun s => M s i j) t) => i j; rewrite mxE.
have [d Hd] := H i j; have E := is_derive_unique _ _ _ Hd; rewrite E; exact: Hd.
Qed.
Lemma mderiv_reindex m n m' n' (M : R -> 'M[RF]_(m, n)) D (f : 'I_m' -> 'I_m) (g : 'I_n' -> 'I_n) :
  mderiv M t D -> mderiv (fun s => \matrix_(i, j) M s (f i) (g j)) t (\matrix_(i, j) D (f i) (g j)).
Proof. by move=> H i j; rewrite mxE; apply: sderiv_ext (H (f i) (g j)) => s; rewrite mxE. Qed.
Lemma mderiv_row m n (M : R -> 'M[RF]_(m, n)) D k : mderiv M t D -> mderiv (fun s => row k (M s)) t (row k D).
Proof. by move=> H i j; rewrite mxE; apply: sderiv_ext (H k j) => s; rewrite mxE. Qed.
Lemma mderiv_col_mx m1 m2 n (M : R -> 'M[RF]_(m1, n)) (N : R -> 'M[RF]_(m2, n)) D E :
  mderiv M t D -> mderiv N t E -> mderiv (fun s => col_mx (M s) (N s)) t (col_mx D E).
Proof.
move=> H1 H2 i j; rewrite mxE.
apply: (sderiv_ext (f := fun s => match split i with inl k => M s k j | inr k => N s k j end)).
  by move=> s; rewrite mxE.
by case: (split i).
Qed.
Lemma mderiv_row_mx m n1 n2 (M : R -> 'M[RF]_(m, n1)) (N : R -> 'M[RF]_(m, n2)) D E :
  mderiv M t D -> mderiv N t E -> mderiv (fun s => row_mx (M s) (N s)) t (row_mx D E).
Proof.
move=> H1 H2 i j; rewrite mxE.
apply: (sderiv_ext (f := fun s => match split j with inl k => M s i k | inr k => N s i k end)).
  by move=> s; rewrite mxE.
by case: (split j).
Qed.

(** Determinant and inverse. *)
Lemma mderiv_det_ex n (M : R -> 'M[RF]_n) D : mderiv M t D -> exists d, sderiv (fun s => \det (M s)) t d.
Proof.
move=> H; pose f (p : 'S_n) s := (-1) ^+ p * \prod_i M s i (p i).
have Hf p : exists d, sderiv (f p) t d.
  have [d Hd] := @sderiv_prod_ex _ (index_enum (ordinal_finType n)) (fun i s => M s i (p i)) t (fun i => ex_intro _ _ (H i (p i))).
  by eexists; apply: sderivM (sderiv_const _ _) Hd.
exists (\sum_p Derive (f p) t).
apply: (sderiv_ext (f := fun s => \sum_p f p s)) => [s|]; first by [].
apply: sderiv_sum => p _; have [d Hd] := Hf p.
have E := is_derive_unique _ _ _ Hd; rewrite E; exact: Hd.
Qed.
Lemma mderiv_unit n (M : R -> 'M[RF]_n) D : mderiv M t D -> M t \in unitmx -> near t (fun s => M s \in unitmx).
Proof.
move=> H; rewrite unitmxE unitfE => nz; have [d Hd] := mderiv_det_ex H.
by apply: near_mp (sderiv_neq0 Hd nz) _ => s; rewrite unitmxE unitfE.
Qed.
Lemma mderiv_inv n (M : R -> 'M[RF]_n) D : mderiv M t D -> M t \in unitmx ->
  mderiv (fun s => invmx (M s)) t (- (invmx (M t) *m D *m invmx (M t))).
Proof.
move=> H U; have nU := mderiv_unit H U.
have [E HE] : exists E, mderiv (fun s => invmx (M s)) t E.
  have [E HE] : exists E, mderiv (fun s => (\det (M s))^-1 *: \adj (M s)) t E.
    apply: mderiv_entries => i j; have [d Hd] := mderiv_det_ex H.
    have H' : mderiv (fun s => row' j (col' i (M s))) t (row' j (col' i D)).
      by move=> k l; rewrite !mxE; apply: sderiv_ext (H _ _) => s; rewrite !mxE.
    have [d' Hd'] := mderiv_det_ex H'.
    have nz : \det (M t) != 0 by move: U; rewrite unitmxE unitfE.
    eexists; apply: sderiv_ext (sderivM (sderivV nz Hd) (sderivM (sderiv_const ((-1) ^+ (j + i)) t) Hd')) => s.
    by rewrite !mxE /cofactor.
  exists E; apply: mderiv_near HE; apply: near_mp nU _ => s Us.
  by rewrite /invmx Us.
have H1 := mderivM HE H.
have H2 : mderiv (fun s => invmx (M s) *m M s) t 0.
  by apply: mderiv_near (mderiv_const 1%:M); apply: near_mp nU _ => s Us; rewrite mulVmx.
have Z := mderiv_unique H1 H2.
apply: mderiv_eq HE _; apply: (can_inj (mulmxK U)).
by rewrite mulNmx mulmxKV //; apply/eqP; rewrite -addr_eq0 Z.
Qed.
End Matrix.
