(** The loops of base.py on stacks of filters. *)
From Coq Require Import String Ascii.
From Verif Require Import Py.
From mathcomp Require Import all_ssreflect all_algebra.
From Verif Require Import KalModel KalDiffModel NpModel NpLemmas NdKalModel NpOps NdCholLemmas NdTransLemmas NdFilterLemmas.
Set Implicit Arguments.
Unset Strict Implicit.
Unset Printing Implicit Defensive.
Import Order.TTheory GRing.Theory Num.Theory.
Local Open Scope ring_scope.

(** Sums over the last axis. *)
Section Sums.
Variable F : rcfType.
Variable b : seq nat.
Lemma rep_sum0 n (A : nd F) (f : seq nat -> 'I_n -> F) : r1 b n A f -> r0 b (sum_last A) (fun e => \sum_k f e k).
Proof.
move=> H; have [H1 H2] := sum_lastE (proj1 H); apply: rep0I; first by rewrite H1 cats0.
move=> e He; cbn [agree]; rewrite H2; apply: eq_bigr => k _; rewrite cats0; exact: (rep0E H He).
Qed.
Lemma rep_sum1 q n (A : nd F) (f : seq nat -> 'I_q -> 'I_n -> F) : r2 b q n A f -> r1 b q (sum_last A) (fun e a => \sum_k f e a k).
Proof.
move=> H; have HA : shape A = (b ++ [:: q]) ++ [:: n] by rewrite -catA; exact: (proj1 H).
have [H1 H2] := sum_lastE HA; apply: rep0I; first by rewrite H1.
move=> e He a; cbn [agree]; rewrite H2; apply: eq_bigr => k _; rewrite -catA; exact: (rep0E H He a).
Qed.
Lemma rep_sum2 q r n (A : nd F) (f : seq nat -> 'I_q -> 'I_r -> 'I_n -> F) :
  rep (pre := [::]) (cs := [:: q; r; n]) b A f -> r2 b q r (sum_last A) (fun e a c => \sum_k f e a c k).
Proof.
move=> H; have HA : shape A = (b ++ [:: q; r]) ++ [:: n] by rewrite -catA; exact: (proj1 H).
have [H1 H2] := sum_lastE HA; apply: rep0I; first by rewrite H1.
move=> e He a c; cbn [agree]; rewrite H2; apply: eq_bigr => k _; rewrite -catA; exact: (rep0E H He a).
Qed.
End Sums.

Section Loops.
Variable F : rcfType.
Local Notation nd := (nd F).
Variable b : seq nat.
Variables nx ny : nat.
Notation est := ('rV[F]_nx * 'M[F]_nx)%type.

Local Notation rstate := (@rstate F b nx).
Local Notation rfilter := (@rfilter F b nx ny).
Local Notation rcd := (@rcd F b nx ny).

(** Measurements of a run: the same for all elements of the stack. *)
Fixpoint rmeass (ys : seq (nmeas F)) (yms : seq (meas F ny)) : Prop :=
  match ys, yms with
  | [::], [::] => True
  | y :: ys', ym :: yms' => rmeas y ym /\ rmeass ys' yms'
  | _, _ => False
  end.

Definition rest (p : nd * nd) (m : seq nat -> est) : Prop :=
  rV b nx p.1 (fun e => (m e).1) /\ rM b nx nx p.2 (fun e => (m e).2).

(** A list of results on the stack holds the lists of results of the elements. *)
Fixpoint rlist T M (R : T -> (seq nat -> M) -> Prop) (l : seq T) (m : seq nat -> seq M) : Prop :=
  match l with
  | [::] => forall e, inb b e -> m e = [::]
  | p :: l' => exists h t, [/\ forall e, inb b e -> m e = h e :: t e, R p h & rlist R l' t]
  end.

Lemma rlist_size T M (R : T -> (seq nat -> M) -> Prop) l m : rlist R l m -> forall e, inb b e -> size (m e) = size l.
Proof.
elim: l m => [|p l IH] m /= H e He; first by rewrite H.
by have [h [t [E _ Ht]]] := H; rewrite E //= (IH _ Ht).
Qed.
Lemma rlist_nth T M (R : T -> (seq nat -> M) -> Prop) l m d0 d :
  (forall p h h', R p h -> (forall e, inb b e -> h e = h' e) -> R p h') ->
  rlist R l m -> forall k, (k < size l)%N -> R (nth d0 l k) (fun e => nth d (m e) k).
Proof.
move=> HR; elim: l m => [|p l IH] m //= [h [t [E Hp Ht]]] [|k] Hk /=.
- by apply: HR Hp _ => e He; rewrite E.
- by apply: HR (IH _ Ht k Hk) _ => e He; rewrite E.
Qed.
Lemma rest_ext p m m' : rest p m -> (forall e, inb b e -> m e = m' e) -> rest p m'.
Proof.
case=> H1 H2 E; split; [apply: (rep_ext H1) | apply: (rep_ext H2)] => e He i; rewrite E //; apply: eqarr_refl.
Qed.
Lemma rstate_ext (s : nstate F) (m m' : seq nat -> fstate F nx) : rstate s m -> (forall e, inb b e -> m e = m' e) -> rstate s m'.
Proof.
case=> H0 H1 H2 E; split; first by move=> e He; rewrite -E ?H0.
- by apply: (rep_ext H1) => e He i; rewrite E.
- by apply: (rep_ext H2) => e He i j; rewrite E.
Qed.

Variables (nf : nfilter F) (fl : seq nat -> filter_class F nx ny).
Hypothesis Hfl : rfilter nf fl.

Lemma rest_of s st : rstate s st -> rest (ns_x s, ns_P s) (fun e => (fs_x (st e), fs_P (st e))).
Proof. by case. Qed.

(** ** [filter] *)

Lemma nd_filter_sim s st ys yms : rstate s st -> rmeass ys yms ->
  sim b (rpair (rlist rest) (rstate)) (nd_filter nf s ys) (fun e => filter (fl e) (st e) yms).
Proof.
elim: ys s st yms => [|y ys IH] s st [|ym yms] //= Hs.
  by move=> _; exists (fun e => ([::], st e)).
case=> Hy Hys.
pose k' e (c : fstate F nx * option (corr_data F nx ny)) := match yms with
  | [::] => Ok ([:: (fs_x c.1, fs_P c.1)], c.1)
  | _ => let* p := predict (fl e) c.1 in
         let* r := filter (fl e) p.1 yms in
         Ok ((fs_x c.1, fs_P c.1) :: r.1, r.2)
  end.
apply: (sim_bind (k' := k') (proj2 Hfl _ _ _ _ Hs Hy)) => c m [Hs1 _] _; rewrite /k' {k'}.
case: ys yms IH Hys => [|y' ys] [|ym' yms] IH // Hys.
  exists (fun e => ([:: (fs_x (m e).1, fs_P (m e).1)], (m e).1)); split=> //; split=> //=.
  by exists (fun e => (fs_x (m e).1, fs_P (m e).1)), (fun=> [::]); split=> //; exact: rest_of Hs1.
pose k' e (p : fstate F nx * 'M[F]_nx) := let* r := filter (fl e) p.1 (ym' :: yms) in
         Ok ((fs_x (m e).1, fs_P (m e).1) :: r.1, r.2).
apply: (sim_bind (k' := k') (proj1 Hfl _ _ Hs1)) => p pm [Hp _] _; rewrite /k' {k'}.
apply: (sim_bind (k' := fun e r => Ok ((fs_x (m e).1, fs_P (m e).1) :: r.1, r.2)) (IH _ _ _ Hp Hys)) => r rm [Hr1 Hr2] _.
exists (fun e => ((fs_x (m e).1, fs_P (m e).1) :: (rm e).1, (rm e).2)); split=> //; split=> //=.
by exists (fun e => (fs_x (m e).1, fs_P (m e).1)), (fun e => (rm e).1); split=> //; exact: rest_of Hs1.
Qed.

(** ** [smooth] *)

Lemma nd_smoother_correction_sim (xp Pp Pxf xs Ps : nd) (xp' xs' : seq nat -> 'rV[F]_nx) (Pp' Pxf' Ps' : seq nat -> 'M[F]_nx) :
  rV b nx xp xp' -> rM b nx nx Pp Pp' -> rM b nx nx Pxf Pxf' -> rV b nx xs xs' -> rM b nx nx Ps Ps' ->
  sim b rest (nd_smoother_correction xp Pp Pxf xs Ps) (fun e => smoother_correction (xp' e) (Pp' e) (Pxf' e) (xs' e) (Ps' e)).
Proof.
move=> H1 H2 H3 H4 H5; rewrite /nd_smoother_correction /smoother_correction.
apply: (sim_bind (k' := fun e PxIpred => let K := Pxf' e *m PxIpred in let e0 := xs' e - xp' e in
   Ok (e0 *m K^T, K *m (Ps' e - Pp' e) *m K^T)) (stacked_sim (@inv F) H2)) => PI mI HI _.
obind K HK (fun Z => rM b nx nx Z (fun e => Pxf' e *m mI e)).
  ein "ijk"%string [:: nx; nx; nx] [:: true; true].
  by gets; rewrite mul2.
obind E HE (fun Z => rV b nx Z (fun e => xs' e - xp' e)).
  by ewise; rewrite [RHS]mxE [X in _ = _ + X]mxE.
obind X HX (fun Z => rV b nx Z (fun e => (xs' e - xp' e) *m (Pxf' e *m mI e)^T)).
  ein "ij"%string [:: nx; nx] [:: true; true].
  by gets; rewrite mulv.
obind D HD (fun Z => rM b nx nx Z (fun e => Ps' e - Pp' e)).
  by ewise; rewrite [RHS]mxE [X in _ = _ + X]mxE.
obind P HP (fun Z => rM b nx nx Z (fun e => (Pxf' e *m mI e) *m (Ps' e - Pp' e) *m (Pxf' e *m mI e)^T)).
  ein "ijkl"%string [:: nx; nx; nx; nx] [:: true; true; true].
  by gets; rewrite mul3r.
by eexists; split.
Qed.

Definition rstep (t : nstep F) (m : seq nat -> step F nx) : Prop :=
  [/\ rest (nt_pred t) (fun e => st_pred (m e)), rM b nx nx (nt_Pxf t) (fun e => st_Pxf (m e)) & rest (nt_est t) (fun e => st_est (m e))].

Lemma nd_forward_sim s st ys yms : rstate s st -> rmeass ys yms ->
  sim b (rpair (rlist rstep) (rstate)) (nd_forward nf s ys) (fun e => forward (fl e) (st e) yms).
Proof.
elim: ys s st yms => [|y ys IH] s st [|ym yms] //= Hs.
  by move=> _; exists (fun e => ([::], st e)).
case=> Hy Hys.
apply: (sim_bind (k' := fun e p => let* c := correct (fl e) p.1 ym in let* r := forward (fl e) c.1 yms in
   Ok (Step (fs_x p.1, fs_P p.1) p.2 (fs_x c.1, fs_P c.1) :: r.1, r.2)) (proj1 Hfl _ _ Hs)) => p pm [Hp Hpf] _.
apply: (sim_bind (k' := fun e c => let* r := forward (fl e) c.1 yms in
   Ok (Step (fs_x (pm e).1, fs_P (pm e).1) (pm e).2 (fs_x c.1, fs_P c.1) :: r.1, r.2)) (proj2 Hfl _ _ _ _ Hp Hy)) => c cm [Hc _] _.
apply: (sim_bind (k' := fun e r => Ok (Step (fs_x (pm e).1, fs_P (pm e).1) (pm e).2 (fs_x (cm e).1, fs_P (cm e).1) :: r.1, r.2))
   (IH _ _ _ Hc Hys)) => r rm [Hr1 Hr2] _.
pose h e := Step (fs_x (pm e).1, fs_P (pm e).1) (pm e).2 (fs_x (cm e).1, fs_P (cm e).1).
exists (fun e => (h e :: (rm e).1, (rm e).2)); split=> //; split=> //=.
exists h, (fun e => (rm e).1); split=> //; split=> //; [exact: rest_of Hp | exact: rest_of Hc].
Qed.

Lemma nd_backward_sim e0 em l lm : rest e0 em -> rlist rstep l lm ->
  sim b (fun r rm => rlist rest r rm /\ r <> [::]) (nd_backward e0 l) (fun e => backward (em e) (lm e)).
Proof.
elim: l e0 em lm => [|t l IH] e0 em lm H0 /=.
  move=> H; exists (fun e => [:: em e]); split; first by move=> e He; rewrite H.
  by split=> //; exists em, (fun=> [::]); split.
case=> h [tl' [E Hh Ht]].
have [Hpred Hpxf Hest] := Hh.
apply: (sim_ext (m := fun e => let* r := backward (st_est (h e)) (tl' e) in
   let sm := head (st_est (h e)) r in
   let* inc := smoother_correction (st_pred (h e)).1 (st_pred (h e)).2 (st_Pxf (h e)) sm.1 sm.2 in
   Ok (((em e).1 + inc.1, (em e).2 + inc.2) :: r))); last by move=> e He; rewrite E.
apply: (sim_bind (k' := fun e r => let sm := head (st_est (h e)) r in
   let* inc := smoother_correction (st_pred (h e)).1 (st_pred (h e)).2 (st_Pxf (h e)) sm.1 sm.2 in
   Ok (((em e).1 + inc.1, (em e).2 + inc.2) :: r)) (IH _ _ _ Hest Ht)) => r rm [Hr Hn] _.
case: r Hr Hn => [|p r] //= [rh [rt [Er Hp Hrt]]] _.
apply: (sim_ext (m := fun e => let* inc := smoother_correction (st_pred (h e)).1 (st_pred (h e)).2 (st_Pxf (h e)) (rh e).1 (rh e).2 in
   Ok (((em e).1 + inc.1, (em e).2 + inc.2) :: rm e))); last by move=> e He; rewrite Er.
apply: (sim_bind (k' := fun e inc => Ok (((em e).1 + inc.1, (em e).2 + inc.2) :: rm e))
   (nd_smoother_correction_sim (proj1 Hpred) (proj2 Hpred) Hpxf (proj1 Hp) (proj2 Hp))) => inc im [Hi1 Hi2] _.
have [H01 H02] := H0.
obind X HX (fun Z => rV b nx Z (fun e => (em e).1 + (im e).1)).
  by ewise; rewrite [RHS]mxE.
obind P HP (fun Z => rM b nx nx Z (fun e => (em e).2 + (im e).2)).
  by ewise; rewrite [RHS]mxE.
exists (fun e => ((em e).1 + (im e).1, (em e).2 + (im e).2) :: rm e); split=> //; split=> //.
exists (fun e => ((em e).1 + (im e).1, (em e).2 + (im e).2)), rm; split=> //.
by exists rh, rt.
Qed.

Variable e0 : seq nat.
Hypothesis He0 : inb b e0.

Lemma nd_smooth_sim s st ys yms : rstate s st -> rmeass ys yms ->
  sim b (rpair (rlist rest) (rstate)) (nd_smooth nf s ys) (fun e => smooth (fl e) (st e) yms).
Proof.
case: ys yms => [|y ys] [|ym yms] //= Hs; first by exists e0.
case=> Hy Hys.
apply: (sim_bind (k' := fun e c => let* fw := forward (fl e) c.1 yms in let* r := backward (fs_x c.1, fs_P c.1) fw.1 in Ok (r, fw.2))
   (proj2 Hfl _ _ _ _ Hs Hy)) => c cm [Hc _] _.
apply: (sim_bind (k' := fun e fw => let* r := backward (fs_x (cm e).1, fs_P (cm e).1) fw.1 in Ok (r, fw.2)) (nd_forward_sim Hc Hys)) => fw fm [Hf1 Hf2] _.
apply: (sim_bind (k' := fun e r => Ok (r, (fm e).2)) (nd_backward_sim (rest_of Hc) Hf1)) => r rm [Hr _] _.
by exists (fun e => (rm e, (fm e).2)).
Qed.

(** ** [pem_merit] *)

Variable log : F -> F.

(** [L] is a stack, or the scalar it starts as. *)
Definition rL (L : nd) (L' : seq nat -> F) : Prop :=
  r0 b L L' \/ exists2 l, r0 [::] L (fun=> l) & forall e, inb b e -> L' e = l.
Lemma rL_sub (L T : nd) L' (T' v : seq nat -> F) : rL L L' -> r0 b T T' -> (forall e, inb b e -> v e = L' e - T' e) ->
  exists Z, nd_lsub L T = Ok Z /\ r0 b Z v.
Proof.
move=> [HL|[l HL El]] HT Ev; rewrite /nd_lsub.
- case: eqP => _; first by apply: (rep_map2 HL HT) => e He /=; rewrite Ev.
  by apply: (rep_imap2 HL HT) => e He /=; rewrite Ev.
- rewrite (_ : shape L == [::]); last by have := proj1 HL => /= ->.
  by apply: (rep_map2_const' HT HL) => e He /=; rewrite Ev // El.
Qed.

Lemma nd_update_likelihood_sim (L : nd) (L' : seq nat -> F) c cm : rL L L' -> rcd c cm ->
  sim b rL (nd_update_likelihood log L c) (fun e => update_likelihood log (L' e) (cm e)).
Proof.
move=> HL; case: c => [d|] /=; last first.
  by move=> H; exists L'; split=> // e He; rewrite H.
case=> A [e' [Pxh [Py [PyI [K [PyC [E [H1 H2] [H3 H4] H5 H6]]]]]]].
case: (nk_PyC d) H6 => [Z [N EN HN]|EN]; last first.
  by exists e0; rewrite // E //= EN.
apply: (sim_ext (m := fun e => Ok (L' e - 2%:R^-1 * (e' e *m PyI e *m (e' e)^T) 0 0 - \sum_k log (N e k k)))); last first.
  by move=> e He; rewrite E //= EN.
obind D HD (fun Z => r1 b #|A| Z (fun e k => N e k k)).
  ein "k"%string [:: #|A|] [:: true].
  by gets.
obind T HT (fun Z => r0 b Z (fun e => (e' e *m PyI e *m (e' e)^T) 0 0)).
  ein "ij"%string [:: #|A|; #|A|] [:: true; true; true].
  by gets; rewrite mul3r.
have HT' : r0 b (nd_scale 2%:R^-1 T) (fun e => 2%:R^-1 * (e' e *m PyI e *m (e' e)^T) 0 0) by apply: (rep_map1 HT).
obind L1 HL1 (fun Z => r0 b Z (fun e => L' e - 2%:R^-1 * (e' e *m PyI e *m (e' e)^T) 0 0)).
  exact: rL_sub HL HT' _.
have HS : r0 b (sum_last (map1 log D)) (fun e => \sum_k log (N e k k)).
  apply: (rep_sum0 (f := fun e k => log (N e k k))).
  by apply: (rep_map1 HD).
have [L2 [-> HL2]] : exists Z, nd_lsub L1 (sum_last (map1 log D)) = Ok Z /\ r0 b Z (fun e => L' e - 2%:R^-1 * (e' e *m PyI e *m (e' e)^T) 0 0 - \sum_k log (N e k k)).
  exact: rL_sub (or_introl HL1) HS _.
by eexists; split=> //; left.
Qed.

Lemma nd_pem_merit_sim s st L L' ys yms : rstate s st -> rL L L' -> rmeass ys yms ->
  sim b rL (nd_pem_merit nf log s L ys) (fun e => pem_merit (fl e) log (st e) (L' e) yms).
Proof.
elim: ys s st L L' yms => [|y ys IH] s st L L' [|ym yms] //= Hs HL.
  by move=> _; exists L'.
case=> Hy Hys.
apply: (sim_bind (k' := fun e c => let* L1 := update_likelihood log (L' e) c.2 in
   match yms with [::] => Ok L1 | _ => let* p := predict (fl e) c.1 in pem_merit (fl e) log p.1 L1 yms end)
   (proj2 Hfl _ _ _ _ Hs Hy)) => c cm [Hc Hd] _.
apply: (sim_bind (k' := fun e L1 => 
   match yms with [::] => Ok L1 | _ => let* p := predict (fl e) (cm e).1 in pem_merit (fl e) log p.1 L1 yms end)
   (nd_update_likelihood_sim HL Hd)) => L1 L1' HL1 _.
case: ys yms IH Hys => [|y' ys] [|ym' yms] IH // Hys; first by exists L1'.
apply: (sim_bind (k' := fun e p => pem_merit (fl e) log p.1 (L1' e) (ym' :: yms)) (proj1 Hfl _ _ Hc)) => p pm [Hp _] _.
exact: IH.
Qed.
End Loops.
