(** C79, together with C73: a filter from its construction to the gradient and
    the Hessian, for models and states with positive definite covariances. *)
From Coq Require Import String.
From Verif Require Import Py.
From mathcomp Require Import all_ssreflect all_algebra.
From Verif Require Import PsdLemmas KalModel KalLemmas KalDiffModel NpModel NpLemmas NdKalModel NpOps NdCholLemmas NdTransLemmas NdFilterLemmas NdLoopLemmas NdDiffLemmas NdGradLemmas PropsNdKal.
From Verif Require Import PropsPemDiff AliasModel AliasLemmas PropsAlias.
Set Implicit Arguments.
Unset Strict Implicit.
Unset Printing Implicit Defensive.
Import Order.TTheory GRing.Theory Num.Theory.
Local Open Scope ring_scope.

Section Total.
Variable F : rcfType.
Variables (nx ny nq : nat) (log : F -> F).

Lemma merit_total (fl : filter_class F nx ny) (Inv : fstate F nx -> Prop) :
  (forall s, Inv s -> exists s' X, predict fl s = Ok (s', X) /\ Inv s') ->
  (forall s y, Inv s -> exists s' c, [/\ correct fl s y = Ok (s', c), Inv s' & forall L, exists L', update_likelihood log L c = Ok L']) ->
  forall s L ys, Inv s -> exists r, pem_merit fl log s L ys = Ok r.
Proof.
move=> Hp Hc s L ys; elim: ys s L => [|y ys IH] s L Hs; first by exists L.
have [s1 [c [E1 H1 HL]]] := Hc s y Hs; have [L1 EL] := HL L.
case: ys IH => [|y' ys] IH; first by exists L1; rewrite /= E1 /= EL.
have [s2 [X [E2 H2]]] := Hp s1 H1; have [r Er] := IH s2 L1 H2; exists r.
have -> : pem_merit fl log s L [:: y, y' & ys] = let* c := correct fl s y in let* L1 := update_likelihood log L c.2 in let* p := predict fl c.1 in pem_merit fl log p.1 L1 (y' :: ys) by [].
by rewrite E1; cbn [bind fst snd]; rewrite EL; cbn [bind]; rewrite E2; cbn [bind fst]; rewrite Er.
Qed.

Lemma ukf_has_PyC (md : model F nx ny) kc r s y s' c : ukf_correct md kc r s y = Ok (s', c) -> forall L, exists L', update_likelihood log L c = Ok L'.
Proof.
rewrite /ukf_correct; case: ifP => _; first by move=> [_ <-] L; exists L.
case: (transform _ _ _ _ _) => [u|//]; rewrite /bind; case: (chol _) => [C|//]; case: (inv _) => [CI|//] [_ <-] L.
by eexists.
Qed.

Variables (mm : dmodel F nx ny nq) (kp kc : F).
Notation md := (dm_md mm).
Hypothesis kp0 : 0 <= kp. Hypothesis mp : 0 < nx%:R + kp. Hypothesis kc0 : 0 <= kc. Hypothesis mc : 0 < nx%:R + kc.
Hypothesis HQ : forall k x, pd (md_Q md k x). Hypothesis HR : pd (md_R md).

Lemma gradient_total g ys : pd (fs_P (g_s g)) -> exists g', grad_loop mm log kp kc g ys = Ok g'.
Proof.
move=> HP.
have [||r Er] := @merit_total (ukf md kp kc (@chol F nx) (@chol F nx)) (fun s => pd (fs_P s)) _ _ (g_s g) (g_L g) ys HP.
- move=> s' Hs'; have [s2 [X [E _ P]]] := ukf_predict_pd kp0 mp (@chol_is_root F nx) Hs' (HQ (fs_k s') (fs_x s')).
  by exists s2, X.
- move=> s' y Hs'; have [s2 [c [E _ P _]]] := ukf_correct_pd y kc0 mc (@chol_is_root F nx) Hs' HR.
  by exists s2, c; split=> //; exact: ukf_has_PyC E.
have [g' Eg _] := grad_total (fun k x => pd_sym (HQ k x)) (pd_sym HR) (pd_sym HP) Er.
by exists g'.
Qed.
Lemma hessian_total h ys : pd (fs_P (g_s (h_g h))) -> exists h', hess_loop mm log kp kc h ys = Ok h'.
Proof.
move=> HP; have [g' Eg] := gradient_total ys HP; move: Eg; rewrite -hess_loopE.
by case: hess_loop => [h'|//] _; exists h'.
Qed.
End Total.

Section Whole.
Variable F : rcfType.
Variable b : seq nat.
Variables (nx ny : nat) (m : hmodel F).
Notation dm := (hm_val m).
Notation nq := (hm_nq m).
Variable mm : seq nat -> dmodel F nx ny nq.
Hypothesis model_new : forall k X, returns_new (hm_df_dq m k X) (nm_df_dq dm k X).
Hypothesis Hdm : rdmodel b dm mm.
Variables (log : F -> F) (kp kc : F).
Hypothesis kp0 : 0 <= kp. Hypothesis mp : 0 < nx%:R + kp. Hypothesis kc0 : 0 <= kc. Hypothesis mc : 0 < nx%:R + kc.
Hypothesis HQR : forall e, inb b e -> (forall k x, pd (md_Q (dm_md (mm e)) k x)) /\ pd (md_R (dm_md (mm e))).
Variable ys : seq (nmeas F).
Hypothesis Hys : List.Forall (meas_ok ny) ys.
Notation yms := [seq meas_of ny y | y <- ys].

(** The values with which the filter starts. *)
Variables (h : heap F) (x Px : option loc) (o : hoptions F) (X0 P0 vdx vdP vd2x vd2P : nd F).
Hypothesis HX : shape X0 = b ++ [:: nx].
Hypothesis HP : shape P0 = b ++ [:: nx; nx].
Hypothesis Pd : forall e, inb b e -> pd (mat_at nx nx P0 e).
Hypothesis no_options : [/\ ho_L o = None, ho_dL_dq o = None, ho_dx_dq o = None & ho_dPx_dq o = None] /\ ho_d2x_dq2 o = None /\ ho_d2Px_dq2 o = None.
Hypothesis Hx : given_or_new h x (hm_x0 m) X0.
Hypothesis HPx : given_or_new h Px (hm_Px0 m) P0.
Hypothesis Hdx : initial_value (hm_dx0_dq m) (zeros F (b ++ [:: nq; nx])) vdx /\ shape vdx = b ++ [:: nq; nx].
Hypothesis HdP : initial_value (hm_dPx0_dq m) (zeros F (b ++ [:: nq; nx; nx])) vdP /\ shape vdP = b ++ [:: nq; nx; nx].
Hypothesis Hd2x : initial_value (hm_d2x0_dq2 m) (zeros F (b ++ [:: nq; nq; nx])) vd2x /\ shape vd2x = b ++ [:: nq; nq; nx].
Hypothesis Hd2P : initial_value (hm_d2Px0_dq2 m) (zeros F (b ++ [:: nq; nq; nx; nx])) vd2P /\ shape vd2P = b ++ [:: nq; nq; nx; nx].

Definition start : nhstate F :=
  NHS (NGS (NS (odflt 0%N (ho_k o)) X0 P0) (scalar 0) (NDS vdx vdP) (zeros F (b ++ [:: nq]))) (NDS vd2x vd2P) (zeros F (b ++ [:: nq; nq])).

(** The filter is constructed and [pem_gradient] called: the result is a new
    array with the gradients of the elements of the stack, and no array of the
    caller has changed.  Likewise for [pem_hessian]. *)
Theorem C79_whole : exists f h1, [/\ h_init nx m x Px o h = (Ok f, h1),
  exists l o' h2, [/\ h_pem_gradient nx m log kp kc f ys h1 = (Ok (l, o'), h2), (size h <= l)%N, shape (at_loc h2 l) = b ++ [:: nq],
     (forall e, inb b e -> exists2 v, pem_gradient (mm e) log kp kc (grad_at nx nq (nh_g start) e) yms = Ok v
                                      & forall a, get (at_loc h2 l) (e ++ [:: nat_of_ord a]) = v a)
     & forall l', (l' < size h)%N -> at_loc h2 l' = at_loc h l']
  & exists l o' h2, [/\ h_pem_hessian nx m log kp kc f ys h1 = (Ok (l, o'), h2), (size h <= l)%N, shape (at_loc h2 l) = b ++ [:: nq; nq],
     (forall e, inb b e -> exists2 v, pem_hessian (mm e) log kp kc (hess_at nx nq start e) yms = Ok v
                                      & forall a c, get (at_loc h2 l) (e ++ [:: nat_of_ord a; nat_of_ord c]) = v a c)
     & forall l', (l' < size h)%N -> at_loc h2 l' = at_loc h l']].
Proof.
have Hb : take (size (shape X0)).-1 (shape X0) = b by rewrite HX size_cat addn1 take_size_cat.
have [O1 [O2 O3]] := no_options.
have := @C79_constructed F nx m h x Px o X0 P0 vdx vdP vd2x vd2P; rewrite Hb; move=> /(_ O1 O2 O3 Hx HPx Hdx.1 HdP.1 Hd2x.1 Hd2P.1).
move=> [f [h1 [E1 S1 Hs Hnew [V _]]]]; exists f, h1.
have Hg : grad_ok b nx nq (nh_g start).
  by split; [split | right | split; [exact: Hdx.2 | exact: HdP.2] |].
have Hh : hess_ok b nx nq start by split=> //; split; [exact: Hd2x.2 | exact: Hd2P.2].
have Hs0 : separate false h1 f.
  have sub l : l \in own false f -> l \in own true f by rewrite !own_rest !inE /= => /or4P[->|->|->|->]; rewrite ?orbT.
  split; [ | by move=> l /sub; exact: (sep_in Hs) | | | exact: sep_L Hs].
  - apply: subseq_uniq (sep_uniq Hs).
    rewrite /own; apply: cat_subseq; last exact: subseq_refl.
    by rewrite /diff_arrays; apply: cat_subseq; [exact: subseq_refl | exact: sub0seq].
  - by split; [exact: (proj1 (sep_x Hs)) | apply: contra (proj2 (sep_x Hs)); exact: sub].
  - by split; [exact: (proj1 (sep_P Hs)) | apply: contra (proj2 (sep_P Hs)); exact: sub].
have Vg : grad_view h1 f = nh_g start by rewrite -[grad_view _ _]/(nh_g (hess_view h1 f)) V.
have Keep := @C79_caller F nx m log kp kc model_new h f h1 S1 Hs Hnew ys.
split=> //.
- have := @C79_gradient F nx m log kp kc model_new h1 f ys Hs0; rewrite Vg.
  have := C73_gradient Hdm log kp kc Hys Hg.
  case: nd_pem_gradient => [G [HG1 HG2] [o' [h2 [E2 H2 H3 _ _]]]|e [e' He' Ee] _]; last first.
    have [HQ HR] := HQR He'.
    have [g' Eg] := @gradient_total F nx ny nq log (mm e') kp kc kp0 mp kc0 mc HQ HR (grad_at nx nq (nh_g start) e') yms (Pd He').
    by move: Ee; rewrite /pem_gradient Eg.
  exists (hf_dL f), o', h2; split=> //.
  + by apply: Hnew; exact: own_diff (in_dL true f).
  + by rewrite H2.
  + by move=> e /HG2[v Ev Hv]; exists v => // a; rewrite H2 Hv.
  + by move=> l' /Keep[+ _]; rewrite E2.
- have := @C79_hessian F nx m log kp kc model_new h1 f ys Hs; rewrite V -/start.
  have := C73_hessian Hdm log kp kc Hys Hh.
  case: nd_pem_hessian => [G [HG1 HG2] [o' [h2 [E2 H2 H3 _ _]]]|e [e' He' Ee] _]; last first.
    have [HQ HR] := HQR He'.
    have [g' Eg] := @hessian_total F nx ny nq log (mm e') kp kc kp0 mp kc0 mc HQ HR (hess_at nx nq start e') yms (Pd He').
    by move: Ee; rewrite /pem_hessian Eg.
  exists (hf_d2L f), o', h2; split=> //.
  + by apply: Hnew; exact: own_diff (in_d2L f).
  + by rewrite H2.
  + by move=> e /HG2[v Ev Hv]; exists v => // a c; rewrite H2 Hv.
  + by move=> l' /Keep[_]; rewrite E2.
Qed.
End Whole.

(** * A concrete case: two filters, one parameter, the state given by the
    caller *)
Section Example.
Variable F : rcfType.
Let mm (e : seq nat) : dmodel F 1 1 1 :=
  DModel (Model (fun _ x => (nth 0%N e 0%N).+1%:R *: x) (fun _ _ => (nth 0%N e 0%N).+1%:R%:M) (fun _ _ => 1%:M) (fun _ x => x) (fun _ _ => 1%:M) 1%:M)
    (fun _ x _ => x) (fun _ _ _ => 0) (fun _ _ _ => 0) (fun _ x _ => x) (fun _ => 0)
    (fun _ _ _ _ => 0) (fun _ _ _ _ => 0) (fun _ _ _ _ => 1%:M) (fun _ _ _ _ => 0) (fun _ _ _ _ => 0) (fun _ _ _ _ => 0)
    (fun _ _ _ _ => 0) (fun _ _ _ _ => 0) (fun _ _ _ _ => 1%:M) (fun _ _ => 0).
Let dm := vectorise [:: 2%N] mm 1%:M (fun=> 0 : 'M[F]_1) (fun _ _ => 0 : 'M[F]_1).
Let X0 : nd F := ND [:: 2; 1]%N (fun i => (nth 0%N i 0%N)%:R).
Let P0 : nd F := ND [:: 2; 1; 1]%N (fun=> 1).
Let m : hmodel F := HModel dm 1 (fun k X => alloc (nm_df_dq dm k X)) (alloc X0) (alloc P0) None None None None.
Let ys : seq (nmeas F) := [:: NMeas (ND [:: 1%N] (fun=> 1)) [:: false]; NMeas (ND [:: 1%N] (fun=> 2%:R)) [:: false]; NMeas (ND [:: 1%N] (fun=> 0)) [:: true]].
Let o : hoptions F := HOptions None None None None None None None.
Let h : heap F := [:: X0; P0].

Lemma alloc_new (A : nd F) : returns_new (alloc A) A.
Proof. by move=> h0; exists (size h0), (rcons h0 A); rewrite size_rcons leqnn ltnSn at_new; split=> //; exact: step_alloc. Qed.

(** The hypotheses of [C79_whole] hold, so the filter is constructed with the
    arrays of the caller and gives a gradient and a Hessian; the Hessian of a
    filter that got an array [dL_dq] in the options is not covered. *)
Example C79_nonvacuous :
  (exists f h1 l o' h2, [/\ h_init 1 m (Some 0%N) (Some 1%N) o h = (Ok f, h1), hf_x f = 0%N, separate true h1 f,
     h_pem_gradient 1 m id 1 1 f ys h1 = (Ok (l, o'), h2) & at_loc h2 0%N = X0]) /\
  (exists f h1, h_init 1 m (Some 0%N) (Some 1%N) (HOptions None None (Some 2%N) None None None None) (rcons h (zeros F [:: 2; 1]%N)) = (Ok f, h1)
     /\ hf_d2L f = hf_dL f /\ separate false h1 f).
Proof.
have Hdm : rdmodel [:: 2%N] dm mm by apply: C73_vectorise.
have HP e : mat_at 1 1 P0 e = 1%:M by apply/matrixP => i j; rewrite !mxE !ord1.
have Hys : List.Forall (meas_ok 1) ys by do 3 constructor=> //.
have Hnew k X : returns_new (hm_df_dq m k X) (nm_df_dq (hm_val m) k X) by exact: alloc_new.
have Hx : given_or_new h (Some 0%N) (hm_x0 m) X0 by [].
have HPx : given_or_new h (Some 1%N) (hm_Px0 m) P0 by [].
split.
- have p1 : 0 <= 1 :> F by exact: ler01.
  have p2 : 0 < 1%:R + 1 :> F by rewrite addr_gt0 ?ltr01.
  have QR e : inb [:: 2%N] e -> (forall k x, pd (md_Q (dm_md (mm e)) k x)) /\ pd (md_R (dm_md (mm e))) by move=> _; split=> *; exact: pd1.
  have PP e : inb [:: 2%N] e -> pd (mat_at 1 1 P0 e) by move=> _; rewrite HP; exact: pd1.
  have NO : [/\ ho_L o = None, ho_dL_dq o = None, ho_dx_dq o = None & ho_dPx_dq o = None] /\ ho_d2x_dq2 o = None /\ ho_d2Px_dq2 o = None by [].
  have [f [h1 [E1 [l [o' [h2 [E2 _ _ _ Hk]]]] _]]] := @C79_whole F [:: 2%N] 1 1 m mm Hnew Hdm id 1 1 p1 p2 p1 p2 QR ys Hys h (Some 0%N) (Some 1%N) o X0 P0
    (zeros F [:: 2; 1; 1]%N) (zeros F [:: 2; 1; 1; 1]%N) (zeros F [:: 2; 1; 1; 1]%N) (zeros F [:: 2; 1; 1; 1; 1]%N) erefl erefl PP NO Hx HPx (conj erefl erefl) (conj erefl erefl) (conj erefl erefl) (conj erefl erefl).
  have [f' [h1' [E1' _ Hs _ [_ Ef]]]] := @C79_constructed F 1 m h (Some 0%N) (Some 1%N) o X0 P0 _ _ _ _ (And4 erefl erefl erefl erefl) erefl erefl Hx HPx erefl erefl erefl erefl.
  move: E1' Hs Ef; rewrite E1 => -[<- <-] Hs Ef.
  by exists f, h1, l, o', h2; split=> //; [exact: Ef | rewrite (Hk 0%N)].
- set r := h_init _ _ _ _ _ _.
  exists (HFilter 0%N 0%N 1%N (HNum (scalar 0)) 2%N 2%N 5%N 6%N 7%N 8%N), r.2; split; first by reflexivity.
  split=> //; split=> // l; rewrite !inE => H.
  by have -> : size r.2 = 9%N by []; case/or3P: H => /eqP ->.
Qed.
End Example.
