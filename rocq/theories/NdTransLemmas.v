(** The unscented transform on stacks does on every element what [KalModel]
    and [KalDiffModel] say. *)
From Coq Require Import String Ascii.
From Verif Require Import Py.
From mathcomp Require Import all_ssreflect all_algebra.
From Verif Require Import KalModel KalDiffModel McRing NpModel NpLemmas NdKalModel NpOps NdCholLemmas.
Set Implicit Arguments.
Unset Strict Implicit.
Unset Printing Implicit Defensive.
Import Order.TTheory GRing.Theory Num.Theory.
Local Open Scope ring_scope.

Section Trans.
Variable F : rcfType.
Local Notation nd := (nd F).
Let RC := [comRingType of F].
Add Ring FRing : (com_rt RC).
Variable b : seq nat.

(** * Axes *)

Lemma repI pre cs (A : nd) (t : seq nat -> arr F (pre ++ cs)) :
  shape A = pre ++ b ++ cs ->
  (forall e, inb b e -> agree (fun c => get A (take (size pre) c ++ e ++ drop (size pre) c)) (t e)) -> rep b A t.
Proof. by []. Qed.

Lemma rep1I k cs (A : nd) (t : seq nat -> 'I_k -> arr F cs) :
  shape A = k :: b ++ cs -> (forall e, inb b e -> forall s : 'I_k, agree (fun c => get A (nat_of_ord s :: e ++ c)) (t e s)) ->
  rep (pre := [:: k]) (cs := cs) b A t.
Proof.
move=> HA H; split=> // e He s; apply: agree_ext (H e He s) => c _ /=.
by rewrite take0 drop0.
Qed.
Lemma rep1E k cs (A : nd) (t : seq nat -> 'I_k -> arr F cs) :
  rep (pre := [:: k]) (cs := cs) b A t -> forall e, inb b e -> forall s : 'I_k, agree (fun c => get A (nat_of_ord s :: e ++ c)) (t e s).
Proof.
move=> [HA H] e He s; apply: agree_ext (H e He s) => c _ /=.
by rewrite take0 drop0.
Qed.
Lemma rep0E cs (A : nd) (t : seq nat -> arr F cs) :
  rep (pre := [::]) (cs := cs) b A t -> forall e, inb b e -> agree (fun c => get A (e ++ c)) (t e).
Proof.
move=> [HA H] e He; apply: agree_ext (H e He) => c _ /=.
by rewrite take0 drop0.
Qed.

Lemma swap12_1 q n m (A : nd) (M : seq nat -> 'I_q -> 'M[F]_(n, m)) :
  rM1 b q n m A M -> rM1 b q m n (swapaxes 1 2 A) (fun e a => (M e a)^T).
Proof.
case=> HA H; split=> /=; first by rewrite HA /= swap_list_cat.
by move=> e He a i j; rewrite swap_list_cat //= mxE; apply: (H e He).
Qed.
Lemma swap12_2 q r n m (A : nd) (M : seq nat -> 'I_q -> 'I_r -> 'M[F]_(n, m)) :
  rM2 b q r n m A M -> rM2 b q r m n (swapaxes 1 2 A) (fun e a c => (M e a c)^T).
Proof.
case=> HA H; split=> /=; first by rewrite HA /= swap_list_cat.
by move=> e He a c i j; rewrite swap_list_cat //= mxE; apply: (H e He).
Qed.
Lemma swap21_2 q r n m (A : nd) (M : seq nat -> 'I_q -> 'I_r -> 'M[F]_(n, m)) :
  rM2 b q r n m A M -> rM2 b q r m n (swapaxes 2 1 A) (fun e a c => (M e a c)^T).
Proof.
case=> HA H; split=> /=; first by rewrite HA /= swap_list_cat.
by move=> e He a c i j; rewrite swap_list_cat //= mxE; apply: (H e He).
Qed.
Lemma swap34_2 q r n m (A : nd) (M : seq nat -> 'I_q -> 'I_r -> 'M[F]_(n, m)) :
  rM2 b q r n m A M -> rM2 b r q n m (swapaxes 3 4 A) (fun e a c => M e c a).
Proof.
case=> HA H; split=> /=; first by rewrite HA /= swap_list_cat.
by move=> e He a c i j; rewrite swap_list_cat //=; apply: (H e He).
Qed.
Lemma swap23_S2 k q r n (A : nd) (M : seq nat -> 'I_q -> 'I_r -> 'M[F]_(k, n)) :
  rS2 b k q r n A M -> rS2 b k r q n (swapaxes 2 3 A) (fun e a c => M e c a).
Proof.
case=> HA H; split=> /=; first by rewrite HA /= -cat_cons swap_list_cat.
by move=> e He s a c i; rewrite -cat_cons swap_list_cat //=; apply: (H e He).
Qed.

Lemma roll_rS n m (A : nd) (M : seq nat -> 'M[F]_(n, m)) : rM b n m A M -> rS b n m (rollaxis 2 A) M.
Proof.
move=> HA; have [HS HG] := rollaxisE (s := b) (proj1 HA).
apply: rep1I => // e He k j; cbn [agree]; rewrite HG ?(inb_size He) //; exact: (rep0E HA He k j).
Qed.
Lemma roll_rS1 q n m (A : nd) (M : seq nat -> 'I_q -> 'M[F]_(n, m)) : rM1 b q n m A M -> rS1 b n q m (rollaxis 2 A) M.
Proof.
move=> HA; have [HS HG] := rollaxisE (s := b ++ [:: q]) (etrans (proj1 HA) (catA b [:: q] [:: n; m])).
apply: rep1I => [|e He k a j]; first by rewrite HS -catA.
cbn [agree]; rewrite (catA e [:: nat_of_ord a] [:: nat_of_ord j]) HG ?size_cat ?(inb_size He) //.
rewrite -catA; exact: (rep0E HA He a k j).
Qed.
Lemma roll_rS2 q r n m (A : nd) (M : seq nat -> 'I_q -> 'I_r -> 'M[F]_(n, m)) : rM2 b q r n m A M -> rS2 b n q r m (rollaxis 2 A) M.
Proof.
move=> HA; have [HS HG] := rollaxisE (s := b ++ [:: q; r]) (etrans (proj1 HA) (catA b [:: q; r] [:: n; m])).
apply: rep1I => [|e He k a c j]; first by rewrite HS -catA.
cbn [agree]; rewrite (catA e [:: nat_of_ord a; nat_of_ord c] [:: nat_of_ord j]) HG ?size_cat ?(inb_size He) //.
rewrite -catA; exact: (rep0E HA He a c k j).
Qed.

(** * Sigma points *)

Section Sigma.
Variables (ni : nat) (kappa : F).
Notation ns := (nsigma ni kappa).

Lemma nsigma_pred : kappa != 0 -> ns.-1 = (ni + ni)%N.
Proof. by rewrite /nsigma => ->; rewrite addn1. Qed.

Lemma nd_weightsE : rep (pre := [::]) (cs := [:: ns]) [::] (nd_weights ni kappa) (fun _ k => weights ni kappa 0 k).
Proof.
apply: rep0I => // e; case: e => // _ k; cbn [agree]; rewrite /nd_weights [LHS]/= /weights.
case: (splitP k) => [j Ej|j Ej].
- have -> : k = lshift _ j by apply: val_inj.
  rewrite row_mxEl mxE.
  have -> // : (kappa != 0) && (nat_of_ord (lshift (kappa != 0) j) == ns.-1) = false.
  by apply/negP => /andP[/nsigma_pred -> /eqP /= E]; have := ltn_ord j; rewrite E ltnn.
- have -> : k = rshift _ j by apply: val_inj.
  rewrite row_mxEr mxE.
  have Hj : (nat_of_ord j < (kappa != 0)%R)%N := ltn_ord j.
  have Hk : kappa != 0 by move: Hj; move: (nat_of_ord j) => z; case: (kappa != 0).
  have -> : nat_of_ord (rshift (ni + ni) j) = (ni + ni)%N.
    by rewrite /=; move: Hj; move: (nat_of_ord j) => z; rewrite Hk ltnS leqn0 => /eqP ->; rewrite addn0.
  by rewrite Hk nsigma_pred // eqxx.
Qed.

(** The deviations row by row. *)
Lemma deviationsE (M : 'M[F]_ni) (g : nat -> F) (k : 'I_ns) j : (forall i : 'I_ni, g i = M i j) ->
  (if (k < ni)%N then g k else if (k < 2 * ni)%N then - g (k - ni)%N else 0) = deviations kappa M k j.
Proof.
move=> H; rewrite /deviations.
case: (splitP k) => [l El|l El].
- have -> : k = lshift _ l by apply: val_inj.
  rewrite col_mxEu /=; case: (splitP l) => [p Ep|p Ep].
  + have -> : l = lshift _ p by apply: val_inj.
    by rewrite col_mxEu /= H.
  + have -> : l = rshift _ p by apply: val_inj.
    by rewrite col_mxEd /= mul2n -addnn ltn_add2l ltn_ord addKn H mxE.
- have -> : k = rshift _ l by apply: val_inj.
  rewrite col_mxEd /= mxE ltnNge -addnA leq_addr /= mul2n -addnn addnA ltnNge leq_addr //.
Qed.

Lemma devs s (Sr : nd) : shape Sr = ni :: s ->
  exists D1, setslice 0 ni (zeros F (ns :: s)) Sr = Ok D1 /\
   ((forall k r, (k < ni)%N -> inb s r -> get (getslice 0 ni D1) (k :: r) = get Sr (k :: r)) /\ shape (getslice 0 ni D1) = ni :: s) /\
   forall T, shape T = ni :: s -> (forall k r, (k < ni)%N -> inb s r -> get T (k :: r) = get Sr (k :: r)) ->
   exists D, setslice ni (2 * ni) D1 (nd_opp T) = Ok D /\ shape D = ns :: s /\
     forall k r, (k < ns)%N -> inb s r ->
       get D (k :: r) = if (k < ni)%N then get Sr (k :: r) else if (k < 2 * ni)%N then - get Sr ((k - ni)%N :: r) else 0.
Proof.
move=> HS.
have Hn : (ni <= ns)%N by rewrite /nsigma -addnA leq_addr.
have Hn2 : (2 * ni <= ns)%N by rewrite /nsigma mul2n -addnn leq_addr.
have [D1 [E1 [HD1 G1]]] := @setsliceE F 0 ni (zeros F (ns :: s)) Sr ns s erefl Hn (etrans HS (congr2 cons (esym (subn0 ni)) erefl)).
exists D1; split=> //; split.
  have [HG GG] := getsliceE HD1 Hn; split=> // k r Hk Hr.
  by rewrite GG G1 // ?leq0n ?Hk ?subn0 //; apply: leq_trans Hk Hn.
move=> T HT GT.
have Hi : (ni <= 2 * ni <= ns)%N by rewrite Hn2 mul2n -addnn leq_addr.
have [|D [E [HD G]]] := @setsliceE F ni (2 * ni) D1 (nd_opp T) ns s HD1 Hi.
  by rewrite /= HT mul2n -addnn addnK.
exists D; split=> //; split=> // k r Hk Hr; rewrite G // G1 //=.
case: (leqP ni k) => Hki /=.
- case: ifP => // Hk2; rewrite GT //.
  by rewrite -(ltn_add2r ni) subnK // addnn -mul2n.
- by rewrite subn0.
Qed.

(** [S] on stacks becomes the deviations on stacks. *)
Lemma sdev (P : nd -> Prop) s (Sr : nd) : shape Sr = ni :: s ->
  (forall D, shape D = ns :: s -> (forall k r, (k < ns)%N -> inb s r ->
     get D (k :: r) = if (k < ni)%N then get Sr (k :: r) else if (k < 2 * ni)%N then - get Sr ((k - ni)%N :: r) else 0) -> P D) ->
  (exists D, (let* D1 := setslice 0 ni (zeros F (ns :: s)) Sr in setslice ni (2 * ni) D1 (nd_opp Sr)) = Ok D /\ P D) /\
  (exists D, (let* D1 := setslice 0 ni (zeros F (ns :: s)) Sr in setslice ni (2 * ni) D1 (nd_opp (getslice 0 ni D1))) = Ok D /\ P D).
Proof.
move=> HS HP; have [D1 [-> [[G S] H]]] := devs HS; split=> /=.
- by have [D [-> [HD GD]]] := H Sr HS (fun _ _ _ _ => erefl); exists D; split=> //; apply: HP.
- by have [D [-> [HD GD]]] := H _ S G; exists D; split=> //; apply: HP.
Qed.

Lemma dev_rS (A : nd) (M : seq nat -> 'M[F]_ni) s : s = b ++ [:: ni] -> rS b ni ni A M ->
  exists D, (let* D1 := setslice 0 ni (zeros F (ns :: s)) A in setslice ni (2 * ni) D1 (nd_opp A)) = Ok D
    /\ rS b ns ni D (fun e => deviations kappa (M e)).
Proof.
move=> Es HA; have [] // := @sdev (fun D => rS b ns ni D (fun e => deviations kappa (M e))) s A (etrans (proj1 HA) (congr1 _ (esym Es))).
move=> D HD G; rewrite Es in HD G; apply: rep1I => // e He k j; cbn [agree]; rewrite G ?inb_cat ?ltn_ord //= ?ltn_ord //.
rewrite -(deviationsE (g := fun i => get A (i :: e ++ [:: nat_of_ord j]))) // => i; exact: (rep1E HA He i j).
Qed.
Lemma dev_rS1 q (A : nd) (M : seq nat -> 'I_q -> 'M[F]_ni) s : s = b ++ [:: q; ni] -> rS1 b ni q ni A M ->
  exists D, (let* D1 := setslice 0 ni (zeros F (ns :: s)) A in setslice ni (2 * ni) D1 (nd_opp (getslice 0 ni D1))) = Ok D
    /\ rS1 b ns q ni D (fun e a => deviations kappa (M e a)).
Proof.
move=> Es HA; have [] // := @sdev (fun D => rS1 b ns q ni D (fun e a => deviations kappa (M e a))) s A (etrans (proj1 HA) (congr1 _ (esym Es))).
move=> D HD G; rewrite Es in HD G; apply: rep1I => // e He k a j; cbn [agree]; rewrite G ?inb_cat ?ltn_ord //= ?ltn_ord //.
rewrite -(deviationsE (g := fun i => get A (i :: e ++ [:: nat_of_ord a; nat_of_ord j]))) // => i; exact: (rep1E HA He i a j).
Qed.
Lemma dev_rS2 q r (A : nd) (M : seq nat -> 'I_q -> 'I_r -> 'M[F]_ni) s : s = b ++ [:: q; r; ni] -> rS2 b ni q r ni A M ->
  exists D, (let* D1 := setslice 0 ni (zeros F (ns :: s)) A in setslice ni (2 * ni) D1 (nd_opp (getslice 0 ni D1))) = Ok D
    /\ rS2 b ns q r ni D (fun e a c => deviations kappa (M e a c)).
Proof.
move=> Es HA; have [] // := @sdev (fun D => rS2 b ns q r ni D (fun e a c => deviations kappa (M e a c))) s A (etrans (proj1 HA) (congr1 _ (esym Es))).
move=> D HD G; rewrite Es in HD G; apply: rep1I => // e He k a c j; cbn [agree]; rewrite G ?inb_cat ?ltn_ord //= ?ltn_ord //.
rewrite -(deviationsE (g := fun i => get A (i :: e ++ [:: nat_of_ord a; nat_of_ord c; nat_of_ord j]))) // => i; exact: (rep1E HA He i a c j).
Qed.

Notation W := (weights ni kappa).

(** Weighted sums over the sigma points. *)
Lemma wsum (A : nd) s : shape A = ns :: s ->
  exists C, einsum "k,k..." [:: nd_weights ni kappa; A] = Ok C /\ shape C = s /\
    forall i, inb s i -> get C i = \sum_(k < ns) W 0 k * get A (nat_of_ord k :: i).
Proof.
move=> HA; have HW := nd_weightsE.
have [C [-> [HC G]]] : exists C, einsum "k,k..." [:: nd_weights ni kappa; A] = Ok C /\
    r0 s C (fun i => \sum_(k < ns) W 0 k * get A (nat_of_ord k :: i)).
  have H0 : rep (pre := [:: ns]) (cs := [::]) s A (fun i k => get A (nat_of_ord k :: i)).
    by split=> [|e He k]; rewrite ?cats0 //= cats0.
  ein "k"%string [:: ns] [:: false; true].
  by apply: eq_bigr => k _; have := proj2 HW [::] isT k => /= ->; rewrite cats0.
exists C; split=> //; split=> [|i Hi]; first by rewrite HC /= cats0.
by have := G i Hi; rewrite /= cats0.
Qed.
Lemma wsum_rV n (A : nd) (X : seq nat -> 'M[F]_(ns, n)) : rS b ns n A X ->
  exists C, einsum "k,k..." [:: nd_weights ni kappa; A] = Ok C /\ rV b n C (fun e => W *m X e).
Proof.
move=> HA; have [C [-> [HC G]]] := wsum (proj1 HA); exists C; split=> //.
apply: rep0I => // e He j; cbn [agree]; rewrite G ?inb_cat //= ?ltn_ord // mxE.
by apply: eq_bigr => k _; rewrite (rep1E HA He k j).
Qed.
Lemma wsum_rV1 q n (A : nd) (X : seq nat -> 'I_q -> 'M[F]_(ns, n)) : rS1 b ns q n A X ->
  exists C, einsum "k,k..." [:: nd_weights ni kappa; A] = Ok C /\ rV1 b q n C (fun e a => W *m X e a).
Proof.
move=> HA; have [C [-> [HC G]]] := wsum (proj1 HA); exists C; split=> //.
apply: rep0I => // e He a j; cbn [agree]; rewrite G ?inb_cat //= ?ltn_ord // mxE.
by apply: eq_bigr => k _; rewrite (rep1E HA He k a j).
Qed.
Lemma wsum_rV2 q r n (A : nd) (X : seq nat -> 'I_q -> 'I_r -> 'M[F]_(ns, n)) : rS2 b ns q r n A X ->
  exists C, einsum "k,k..." [:: nd_weights ni kappa; A] = Ok C /\ rV2 b q r n C (fun e a c => W *m X e a c).
Proof.
move=> HA; have [C [-> [HC G]]] := wsum (proj1 HA); exists C; split=> //.
apply: rep0I => // e He a c j; cbn [agree]; rewrite G ?inb_cat //= ?ltn_ord // mxE.
by apply: eq_bigr => k _; rewrite (rep1E HA He k a c j).
Qed.

(** Weighted products of deviations. *)
Lemma wprodE n m (A : 'M[F]_(ns, n)) (B : 'M[F]_(ns, m)) i j :
  (A^T *m diag_mx W *m B) i j = \sum_(k < ns) A k i * B k j * W 0 k.
Proof. by rewrite mxE; apply: eq_bigr => k _; rewrite mul_mx_diag !mxE mulrAC. Qed.
Lemma wprodE' n m (A : 'M[F]_(ns, n)) (B : 'M[F]_(ns, m)) i j :
  (B^T *m diag_mx W *m A) j i = \sum_(k < ns) A k i * B k j * W 0 k.
Proof. by rewrite mxE; apply: eq_bigr => k _; rewrite mul_mx_diag !mxE mulrAC [B _ _ * _]mulrC. Qed.

Lemma everyE m n (v : 'rV[F]_n) (k : 'I_m) j : every m v k j = v 0 j.
Proof. by rewrite mxE. Qed.

(** * The transform *)

Section Transform.
Variable no : nat.
Definition rut (u : nut F) (m : seq nat -> ut_data ni kappa no) : Prop :=
  [/\ rM b ni ni (nu_S u) (fun e => u_S (m e)),
      rS b ns ni (nu_isigma u) (fun e => u_isigma (m e)) /\ rS b ns ni (nu_idev u) (fun e => u_idev (m e)),
      rS b ns no (nu_odev u) (fun e => u_odev (m e)),
      rV b no (nu_o u) (fun e => u_o (m e)) &
      rM b no no (nu_Po u) (fun e => u_Po (m e))].

(** A square root on stacks. *)
Definition lifts (nsq : nd -> res nd) (sq : seq nat -> 'M[F]_ni -> res 'M[F]_ni) : Prop :=
  forall A (M : seq nat -> 'M[F]_ni), rM b ni ni A M -> sim b (fun C (N : seq nat -> 'M[F]_ni) => rM b ni ni C N) (nsq A) (fun e => sq e (M e)).
Lemma lifts_chol : lifts (@nd_chol F) (fun=> @chol F ni).
Proof. by move=> A M HA; apply: nd_chol_sim. Qed.

(** A vectorised function of the sigma points. *)
Definition vec (cs : seq nat) (f : nd -> res nd) (g : seq nat -> 'rV[F]_ni -> arr F cs) : Prop :=
  forall X (XM : seq nat -> 'M[F]_(ns, ni)), rS b ns ni X XM ->
    exists Y, f X = Ok Y /\ rep (pre := [:: ns]) (cs := cs) b Y (fun e s => g e (row s (XM e))).

Lemma nd_transform_sim nsq sq (i Pi : nd) (x : seq nat -> 'rV[F]_ni) (P : seq nat -> 'M[F]_ni) f (g : seq nat -> 'rV[F]_ni -> 'rV[F]_no) :
  lifts nsq sq -> rV b ni i x -> rM b ni ni Pi P -> vec (cs := [:: no]) f (fun e x j => g e x 0 j) ->
  sim b rut (nd_transform ni kappa nsq i Pi f) (fun e => transform kappa (sq e) (x e) (P e) (g e)).
Proof.
move=> Hsq Hi HP Hf; rewrite /nd_transform /nd_sigma_points.
have HP' : rM b ni ni (nd_scale (ni%:R + kappa) Pi) (fun e => (ni%:R + kappa) *: P e).
  by apply: (rep_map1 HP) => e He k j /=; rewrite mxE.
have E A B C (r : res A) (k : A -> res B) (k' : B -> res C) : (let* y := (let* x := r in k x) in k' y) = let* x := r in let* y := k x in k' y.
  by case: r.
rewrite E; apply: (sim_bind (Hsq _ _ HP')) => Sq MS HS _.
have [D [ED HD]] := dev_rS (s := shape i) (proj1 Hi) (roll_rS HS).
move: ED; case: (setslice 0 ni _ _) => [D1|//] /= ED; rewrite ED /= E.
obind Z HZ (fun Z => rS b ns ni Z (fun e => deviations kappa (MS e) + every _ (x e))).
  by ewise; rewrite [RHS]mxE everyE.
have [Y [-> HY0]] := Hf _ _ HZ; cbn [bind].
have HY : rS b ns no Y (fun e => at_rows (g e) (deviations kappa (MS e) + every _ (x e))).
  by apply: (rep_ext HY0) => e He s j; rewrite mxE.
have [C [-> HC]] := wsum_rV HY; cbn [bind].
set od := fun e => at_rows (g e) (deviations kappa (MS e) + every _ (x e)) - every _ (W *m at_rows (g e) (deviations kappa (MS e) + every _ (x e))).
obind V HV (fun V => rS b ns no V od).
  by ewise; rewrite [RHS]mxE [X in _ = _ + X]mxE everyE.
have HW := nd_weightsE.
obind U HU (fun U => rM b no no U (fun e => (od e)^T *m diag_mx W *m od e)).
  ein "ijk"%string [:: no; no; ns] [:: true; true; false].
  by gets; rewrite wprodE.
by apply: sim_ok => //; split=> //; split.
Qed.

Lemma nd_crosscov_ok u m : rut u m -> exists C, nd_crosscov ni kappa u = Ok C /\ rM b ni no C (fun e => crosscov (m e)).
Proof.
case=> H1 [H2 H3] H4 H5 H6; have HW := nd_weightsE; rewrite /nd_crosscov.
ein "ijk"%string [:: ni; no; ns] [:: true; true; false].
by gets; rewrite wprodE.
Qed.

(** ** First derivatives *)

Variable nq : nat.
Definition rutd (mu : seq nat -> ut_data ni kappa no) (gx : seq nat -> 'rV[F]_ni -> 'M[F]_(ni, no))
    (v : nutd F) (m : seq nat -> ut_diff ni no nq kappa) : Prop :=
  [/\ rchol b (fun e => v_dQ (m e)) (nv_chol v) (fun e => (v_ALI (m e), v_dS (m e))),
      rep (pre := [:: ns]) (cs := [:: ni; no]) b (nv_df_di v) (fun e s i j => gx e (row s (u_isigma (mu e))) i j),
      rS1 b ns nq ni (nv_didev v) (fun e => v_didev (m e)) /\ rS1 b ns nq ni (nv_disigma v) (fun e => v_disigma (m e)),
      rS1 b ns nq no (nv_dodev v) (fun e => v_dodev (m e)) &
      rV1 b nq no (nv_do v) (fun e => v_do (m e)) /\ rM1 b nq no no (nv_dPo v) (fun e => v_dPo (m e))].

Lemma nd_transform_diff_sim u mu df_dq df_di (gq : seq nat -> 'rV[F]_ni -> 'I_nq -> 'rV[F]_no) (gx : seq nat -> 'rV[F]_ni -> 'M[F]_(ni, no))
    (di dPi : nd) (x1 : seq nat -> 'I_nq -> 'rV[F]_ni) (P1 : seq nat -> 'I_nq -> 'M[F]_ni) :
  rut u mu -> vec (cs := [:: nq; no]) df_dq (fun e x a j => gq e x a 0 j) ->
  vec (cs := [:: ni; no]) df_di (fun e x i j => gx e x i j) ->
  rV1 b nq ni di x1 -> rM1 b nq ni ni dPi P1 ->
  sim b (rutd mu gx) (nd_transform_diff ni kappa u df_dq df_di di dPi)
    (fun e => transform_diff (mu e) (gq e) (gx e) (x1 e) (P1 e)).
Proof.
case=> H1 [H2 H3] H4 H5 H6 Hq Hx Hdi HdP; rewrite /nd_transform_diff.
have [Y [-> HY]] := Hx _ _ H2; cbn [bind].
have HP' : rM1 b nq ni ni (nd_scale (ni%:R + kappa) dPi) (fun e a => (ni%:R + kappa) *: P1 e a).
  by apply: (rep_map1 HdP) => e He a k j /=; rewrite mxE.
apply: (sim_bind (nd_chol_diff_sim H1 HP')) => c mc Hc _.
have [Hc1 Hc2 Hc3] := Hc.
rewrite /nd_sigma_points_diff.
have [D [ED HD]] := dev_rS1 (s := shape di) (proj1 Hdi) (roll_rS1 Hc3).
move: ED; case: (setslice 0 ni _ _) => [D1|//] /= ED; rewrite ED /=.
have E A B C (r : res A) (k : A -> res B) (k' : B -> res C) : (let* y := (let* x := r in k x) in k' y) = let* x := r in let* y := k x in k' y.
  by case: r.
rewrite E.
obind Z HZ (fun Z => rS1 b ns nq ni Z (fun e a => deviations kappa ((mc e).2 a) + every _ (x1 e a))).
  by ewise; rewrite [RHS]mxE everyE.
have [Y' [-> HY']] := Hq _ _ H2; cbn [bind].
pose dis e a := deviations kappa ((mc e).2 a) + every ns (x1 e a).
obind T HT (fun T => rep (pre := [:: ns]) (cs := [:: nq; no]) b T
    (fun e s a j => (row s (dis e a) *m gx e (row s (u_isigma (mu e)))) 0 j)).
  ein "kifa"%string [:: ns; ni; no; nq] [:: true; true].
  by gets; rewrite mxE; apply: eq_bigr => k _; rewrite mulrC [row _ _ _ _]mxE.
pose Do e a := \matrix_(k, j) (gq e (row k (u_isigma (mu e))) a 0 j + (row k (dis e a) *m gx e (row k (u_isigma (mu e)))) 0 j).
obind G HG (fun G => rS1 b ns nq no G Do).
  by ewise; rewrite [RHS]mxE.
have [C [-> HC]] := wsum_rV1 HG; cbn [bind].
pose dod e a := Do e a - every _ (W *m Do e a).
obind V HV (fun V => rS1 b ns nq no V dod).
  by ewise; rewrite [RHS]mxE [X in _ = _ + X]mxE everyE.
have HW := nd_weightsE.
pose half e a := (u_odev (mu e))^T *m diag_mx W *m dod e a.
obind U HU (fun U => rM1 b nq no no U half).
  ein "lijk"%string [:: nq; no; no; ns] [:: true; true; false].
  by gets; rewrite wprodE'.
have HUs := swap12_1 HU.
obind U' HU' (fun U => rM1 b nq no no U (fun e a => half e a + (half e a)^T)).
  by ewise; rewrite [RHS]mxE.
apply: sim_ok; last by move=> e He /=; reflexivity.
by split.
Qed.

Lemma nd_crosscov_diff_ok u mu gx v m : rut u mu -> rutd mu gx v m ->
  exists C, nd_crosscov_diff ni kappa u v = Ok C /\ rM1 b nq ni no C (fun e => crosscov_diff (mu e) (m e)).
Proof.
case=> H1 [H2 H3] H4 H5 H6 [K1 K2 [K3 K4] K5 [K6 K7]]; have HW := nd_weightsE; rewrite /nd_crosscov_diff.
obind A HA (fun A => rM1 b nq ni no A (fun e a => (v_didev (m e) a)^T *m diag_mx W *m u_odev (mu e))).
  ein "aijk"%string [:: nq; ni; no; ns] [:: true; true; false].
  by gets; rewrite wprodE.
obind B HB (fun A => rM1 b nq ni no A (fun e a => (u_idev (mu e))^T *m diag_mx W *m v_dodev (m e) a)).
  ein "aijk"%string [:: nq; ni; no; ns] [:: true; true; false].
  by gets; rewrite wprodE.
by ewise; rewrite [RHS]mxE.
Qed.

(** ** Second derivatives *)

Definition rutd2 (w : nutd2 F) (m : seq nat -> ut_diff2 ni no nq kappa) : Prop :=
  [/\ rS2 b ns nq nq ni (nw_d2idev w) (fun e => w_d2idev (m e)), rS2 b ns nq nq no (nw_d2odev w) (fun e => w_d2odev (m e)),
      rV2 b nq nq no (nw_d2o w) (fun e => w_d2o (m e)) & rM2 b nq nq no no (nw_d2Po w) (fun e => w_d2Po (m e))].

Lemma nd_transform_diff2_ok u mu gx v m d2f_dq2 d2f_di2 d2f_di_dq
    (gqq : seq nat -> 'rV[F]_ni -> 'I_nq -> 'I_nq -> 'rV[F]_no) (gxx : seq nat -> 'rV[F]_ni -> 'I_ni -> 'I_ni -> 'rV[F]_no)
    (gqx : seq nat -> 'rV[F]_ni -> 'I_nq -> 'I_ni -> 'rV[F]_no)
    (d2i d2Pi : nd) (x2 : seq nat -> 'I_nq -> 'I_nq -> 'rV[F]_ni) (P2 : seq nat -> 'I_nq -> 'I_nq -> 'M[F]_ni) :
  rut u mu -> rutd mu gx v m ->
  vec (cs := [:: nq; nq; no]) d2f_dq2 (fun e x a c j => gqq e x a c 0 j) ->
  vec (cs := [:: ni; ni; no]) d2f_di2 (fun e x a c j => gxx e x a c 0 j) ->
  vec (cs := [:: nq; ni; no]) d2f_di_dq (fun e x a c j => gqx e x a c 0 j) ->
  rV2 b nq nq ni d2i x2 -> rM2 b nq nq ni ni d2Pi P2 ->
  exists w, nd_transform_diff2 ni kappa u v d2f_dq2 d2f_di2 d2f_di_dq d2i d2Pi = Ok w
    /\ rutd2 w (fun e => transform_diff2 (mu e) (gx e) (gqq e) (gxx e) (gqx e) (m e) (x2 e) (P2 e)).
Proof.
case=> H1 [H2 H3] H4 H5 H6 [K1 K2 [K3 K4] K5 [K6 K7]] Hqq Hxx Hqx Hd2i Hd2P; rewrite /nd_transform_diff2.
have HP' : rM2 b nq nq ni ni (nd_scale (ni%:R + kappa) d2Pi) (fun e a c => (ni%:R + kappa) *: P2 e a c).
  by apply: (rep_map1 Hd2P) => e He a c k j /=; rewrite mxE.
have [S2 [-> HS2]] := nd_chol_diff2_ok H1 K1 HP'; cbn [bind].
rewrite /nd_sigma_points_diff.
have [D [ED HD]] := dev_rS2 (s := shape d2i) (proj1 Hd2i) (roll_rS2 HS2).
move: ED; case: (setslice 0 ni _ _) => [D1|//] /= ED; rewrite ED /=.
have E A B C (r : res A) (k : A -> res B) (k' : B -> res C) : (let* y := (let* x := r in k x) in k' y) = let* x := r in let* y := k x in k' y.
  by case: r.
rewrite E.
pose d2idev e a c := deviations kappa (chol_diff2 (v_ALI (m e)) (v_dQ (m e)) (v_dS (m e)) (fun a c => (ni%:R + kappa) *: P2 e a c) a c).
pose d2is e a c := d2idev e a c + every ns (x2 e a c).
obind Z HZ (fun Z => rS2 b ns nq nq ni Z d2is).
  by ewise; rewrite [RHS]mxE everyE.
have [Y1 [-> HY1]] := Hqx _ _ H2; cbn [bind].
pose X e c a := \matrix_(k, j) \sum_i gqx e (row k (u_isigma (mu e))) a i 0 j * v_disigma (m e) c k i.
obind T1 HT1 (fun T => rS2 b ns nq nq no T X).
  ein "kaifb"%string [:: ns; nq; ni; no; nq] [:: true; true].
  by gets; rewrite mxE; apply: eq_bigr => k _.
have HT1' := swap23_S2 HT1.
obind T2 HT2 (fun T => rS2 b ns nq nq no T (fun e c a => X e c a + X e a c)).
  by ewise; rewrite [RHS]mxE.
have [Y2 [-> HY2]] := Hqq _ _ H2; cbn [bind].
obind T3 HT3 (fun T => rep (pre := [:: ns]) (cs := [:: nq; nq; no]) b T
    (fun e s c a j => X e c a s j + X e a c s j + gqq e (row s (u_isigma (mu e))) c a 0 j)).
  by ewise; rewrite [(_ + X _ _ _) _ _]mxE.
have [Y3 [-> HY3]] := Hxx _ _ H2; cbn [bind].
obind T4 HT4 (fun T => rep (pre := [:: ns]) (cs := [:: nq; nq; no]) b T
    (fun e s c a j => \sum_i \sum_i' gxx e (row s (u_isigma (mu e))) i i' 0 j * v_disigma (m e) a s i * v_disigma (m e) c s i')).
  ein "kijfab"%string [:: ns; ni; ni; no; nq; nq] [:: true; true; true].
  by gets.
obind T5 HT5 (fun T => rep (pre := [:: ns]) (cs := [:: nq; nq; no]) b T
    (fun e s c a j => X e c a s j + X e a c s j + gqq e (row s (u_isigma (mu e))) c a 0 j
      + \sum_i \sum_i' gxx e (row s (u_isigma (mu e))) i i' 0 j * v_disigma (m e) a s i * v_disigma (m e) c s i')).
  by ewise.
obind T6 HT6 (fun T => rep (pre := [:: ns]) (cs := [:: nq; nq; no]) b T
    (fun e s c a j => (row s (d2is e c a) *m gx e (row s (u_isigma (mu e)))) 0 j)).
  ein "kifba"%string [:: ns; ni; no; nq; nq] [:: true; true].
  by gets; rewrite mxE; apply: eq_bigr => k _; rewrite mulrC [row _ _ _ _]mxE.
pose D2 e c a := \matrix_(k, j) (X e c a k j + X e a c k j + gqq e (row k (u_isigma (mu e))) c a 0 j
      + \sum_i \sum_i' gxx e (row k (u_isigma (mu e))) i i' 0 j * v_disigma (m e) a k i * v_disigma (m e) c k i'
      + (row k (d2is e c a) *m gx e (row k (u_isigma (mu e)))) 0 j).
obind T7 HT7 (fun T => rS2 b ns nq nq no T D2).
  by ewise; rewrite [RHS]mxE.
have [C [-> HC]] := wsum_rV2 HT7; cbn [bind].
pose od e a c := D2 e a c - every _ (W *m D2 e a c).
obind V HV (fun V => rS2 b ns nq nq no V od).
  by ewise; rewrite [RHS]mxE [X in _ = _ + X]mxE everyE.
have HW := nd_weightsE.
obind U1 HU1 (fun U => rM2 b nq nq no no U (fun e a c => (od e a c)^T *m diag_mx W *m u_odev (mu e))).
  ein "abijk"%string [:: nq; nq; no; no; ns] [:: true; true; false].
  by gets; rewrite wprodE.
obind U2 HU2 (fun U => rM2 b nq nq no no U (fun e a c => (v_dodev (m e) c)^T *m diag_mx W *m v_dodev (m e) a)).
  ein "abijk"%string [:: nq; nq; no; no; ns] [:: true; true; false].
  by gets; rewrite wprodE.
pose half e a c := (od e a c)^T *m diag_mx W *m u_odev (mu e) + (v_dodev (m e) c)^T *m diag_mx W *m v_dodev (m e) a.
obind U3 HU3 (fun U => rM2 b nq nq no no U half).
  by ewise; rewrite [RHS]mxE.
have HU3s := swap12_2 HU3.
obind U4 HU4 (fun U => rM2 b nq nq no no U (fun e a c => half e a c + (half e a c)^T)).
  by ewise; rewrite [RHS]mxE.
have EX e c a : D2 e c a = \matrix_(k, j)
    (\sum_i gqx e (row k (u_isigma (mu e))) a i 0 j * v_disigma (m e) c k i
     + \sum_i gqx e (row k (u_isigma (mu e))) c i 0 j * v_disigma (m e) a k i
     + gqq e (row k (u_isigma (mu e))) c a 0 j
     + \sum_i \sum_i' gxx e (row k (u_isigma (mu e))) i i' 0 j * v_disigma (m e) a k i * v_disigma (m e) c k i'
     + (row k (d2is e c a) *m gx e (row k (u_isigma (mu e)))) 0 j).
  by apply/matrixP => k j; rewrite [LHS]mxE [RHS]mxE; congr (_ + _ + _ + _ + _); rewrite mxE.
eexists; split; first by []; split=> //=.
- apply: (rep_ext HV) => e He s a c j; rewrite /od !EX; reflexivity.
- apply: (rep_ext HC) => e He a c j; rewrite !EX; reflexivity.
- apply: (rep_ext HU4) => e He a c i j; rewrite /half /od !EX; reflexivity.
Qed.

Lemma nd_crosscov_diff2_ok u mu gx v m w m2 : rut u mu -> rutd mu gx v m -> rutd2 w m2 ->
  exists C, nd_crosscov_diff2 ni kappa u v w = Ok C /\ rM2 b nq nq ni no C (fun e => crosscov_diff2 (mu e) (m e) (m2 e)).
Proof.
case=> H1 [H2 H3] H4 H5 H6 [K1 K2 [K3 K4] K5 [K6 K7]] [J1 J2 J3 J4]; have HW := nd_weightsE; rewrite /nd_crosscov_diff2.
pose X e a c := (v_didev (m e) c)^T *m diag_mx W *m v_dodev (m e) a.
obind A HA (fun A => rM2 b nq nq ni no A X).
  ein "abijk"%string [:: nq; nq; ni; no; ns] [:: true; true; false].
  by gets; rewrite wprodE.
have HAs := swap34_2 HA.
obind A2 HA2 (fun A => rM2 b nq nq ni no A (fun e a c => X e a c + X e c a)).
  by ewise; rewrite [RHS]mxE.
obind B HB (fun A => rM2 b nq nq ni no A (fun e a c => (w_d2idev (m2 e) a c)^T *m diag_mx W *m u_odev (mu e))).
  ein "abijk"%string [:: nq; nq; ni; no; ns] [:: true; true; false].
  by gets; rewrite wprodE.
obind A3 HA3 (fun A => rM2 b nq nq ni no A (fun e a c => X e a c + X e c a + (w_d2idev (m2 e) a c)^T *m diag_mx W *m u_odev (mu e))).
  by ewise; rewrite [RHS]mxE.
obind B' HB' (fun A => rM2 b nq nq ni no A (fun e a c => (u_idev (mu e))^T *m diag_mx W *m w_d2odev (m2 e) a c)).
  ein "abijk"%string [:: nq; nq; ni; no; ns] [:: true; true; false].
  by gets; rewrite wprodE.
by ewise; rewrite [RHS]mxE.
Qed.
End Transform.
End Sigma.
End Trans.
