(** Computations on memory compared with value-passing ones. *)
From Coq Require Import String.
From Verif Require Import Py.
From mathcomp Require Import all_ssreflect all_algebra.
From Verif Require Import KalModel NpModel NdKalModel AliasModel.
Set Implicit Arguments.
Unset Strict Implicit.
Unset Printing Implicit Defensive.
Import Order.TTheory GRing.Theory Num.Theory.
Local Open Scope ring_scope.

Section Runs.
Variable F : rcfType.
Local Notation nd := (nd F).
Local Notation heap := (heap F).
Local Notation at_loc := (@at_loc F).

(** Only the arrays at [W] may differ, and there may be new ones. *)
Definition step (h : heap) (W : seq loc) (h' : heap) : Prop :=
  (size h <= size h')%N /\ forall l, (l < size h)%N -> l \notin W -> at_loc h' l = at_loc h l.

Lemma step_refl h W : step h W h. Proof. by []. Qed.
Lemma step_trans h W h' W' h'' : step h W h' -> step h' W' h'' -> (forall l, (l < size h)%N -> l \in W' -> l \in W) -> step h W h''.
Proof.
move=> [H1 E1] [H2 E2] HW; split; first exact: leq_trans H2.
move=> l Hl Hn; rewrite E2 ?E1 //; first exact: leq_trans H1.
by apply: contra Hn; exact: HW.
Qed.
Lemma step_sub h W W' h' : step h W h' -> (forall l, (l < size h)%N -> l \in W -> l \in W') -> step h W' h'.
Proof. by move=> H HW; apply: step_trans (step_refl h W') H HW. Qed.
Lemma step_alloc h W A : step h W (rcons h A).
Proof. by split=> [|l Hl _]; rewrite ?size_rcons // /at_loc nth_rcons Hl. Qed.
Lemma step_set h (W : seq loc) l A : l \in W -> (l < size h)%N -> step h W (set_nth (zeros F [::]) h l A).
Proof.
move=> HW Hl; split=> [|l' Hl' Hn]; first by rewrite size_set_nth leq_max leqnn orbT.
by rewrite /at_loc nth_set_nth /=; case: eqP Hn => // ->; rewrite HW.
Qed.
Lemma at_set h l A l' : at_loc (set_nth (zeros F [::]) h l A) l' = if l' == l then A else at_loc h l'.
Proof. by rewrite /at_loc nth_set_nth. Qed.
Lemma size_set h l A : (l < size h)%N -> size (set_nth (zeros F [::]) h l A) = size h.
Proof. by move=> Hl; rewrite size_set_nth; apply/maxn_idPr. Qed.
Lemma at_new h A : at_loc (rcons h A) (size h) = A.
Proof. by rewrite /at_loc nth_rcons ltnn eqxx. Qed.
Lemma at_old h A l : (l < size h)%N -> at_loc (rcons h A) l = at_loc h l.
Proof. by move=> Hl; rewrite /at_loc nth_rcons Hl. Qed.
Lemma at_new1 h A B : at_loc (rcons (rcons h A) B) (size h) = A.
Proof. by rewrite at_old ?at_new // size_rcons. Qed.
Lemma at_new2 h A B : at_loc (rcons (rcons h A) B) (size h).+1 = B.
Proof. by rewrite -(size_rcons h A) at_new. Qed.

(** [m] on memory does what [r] does with values: same exception, or results
    related by [Q]; it writes only at [W]. *)
Definition runs A B (h : heap) (m : mem F A) (r : res B) (Q : A -> B -> heap -> Prop) (W : seq loc) : Prop :=
  match r with
  | Ok b => exists a h', [/\ m h = (Ok a, h'), step h W h' & Q a b h']
  | Err e => exists2 h', m h = (Err e, h') & step h W h'
  end.

Lemma runs_from A B W h0 h (m : mem F A) (r : res B) Q (m0 : mem F A) : step h0 W h -> m0 h0 = m h -> runs h m r Q W -> runs h0 m0 r Q W.
Proof.
move=> Hs E; case: r => [b|e] /=.
- by move=> [a [h' [H1 H2 H3]]]; exists a, h'; rewrite E; split=> //; apply: step_trans Hs H2 _.
- by move=> [h' H1 H2]; exists h'; rewrite ?E //; apply: step_trans Hs H2 _.
Qed.

Lemma runs_weak A B W W' h0 h (m : mem F A) (r : res B) Q (m0 : mem F A) : step h0 W h -> m0 h0 = m h ->
  (forall l, (l < size h0)%N -> l \in W' -> l \in W) -> runs h m r Q W' -> runs h0 m0 r Q W.
Proof.
move=> Hs E HW; case: r => [b|e] /=.
- by move=> [a [h' [H1 H2 H3]]]; exists a, h'; rewrite E; split=> //; apply: step_trans Hs H2 HW.
- by move=> [h' H1 H2]; exists h'; rewrite ?E //; apply: step_trans Hs H2 HW.
Qed.
(** A larger set of written arrays; the precise one is kept as a fact. *)
Lemma runs_sub A B W W' h (m : mem F A) (r : res B) Q : runs h m r Q W -> {subset W <= W'} ->
  runs h m r (fun a b h' => step h W h' /\ Q a b h') W'.
Proof.
move=> H HW; case: r H => [b|e] /=.
- by move=> [a [h' [H1 H2 H3]]]; exists a, h'; split=> //; apply: step_sub H2 _ => l _; exact: HW.
- by move=> [h' H1 H2]; exists h' => //; apply: step_sub H2 _ => l _; exact: HW.
Qed.

Section Rules.
Variables (A B A' B' : Type) (W : seq loc).
Implicit Types (Q : A -> B -> heap -> Prop).

Lemma runs_bind h (m : mem F A) (r : res B) Q (k : A -> mem F A') (k' : B -> res B') (Q' : A' -> B' -> heap -> Prop) : runs h m r Q W ->
  (forall a b h', step h W h' -> Q a b h' -> runs h' (k a) (k' b) Q' W) -> runs h (mbind m k) (bind r k') Q' W.
Proof.
case: r => [b|e] /=.
- move=> [a [h' [E Hs HQ]]] H; apply: (runs_from Hs (m := k a)); last exact: H.
  by rewrite /mbind E.
- by move=> [h' E Hs] _; exists h'; rewrite // /mbind E.
Qed.
(** The second part may also write at new arrays. *)
Lemma runs_bind_new h (m : mem F A) (r : res B) Q (k : A -> mem F A') (k' : B -> res B') (Q' : A' -> B' -> heap -> Prop) : runs h m r Q W ->
  (forall a b h', step h W h' -> Q a b h' -> exists2 W', (forall l, (l < size h)%N -> l \in W' -> l \in W) & runs h' (k a) (k' b) Q' W') ->
  runs h (mbind m k) (bind r k') Q' W.
Proof.
case: r => [b|e] /=.
- move=> [a [h' [E Hs HQ]]] H; have [W' HW Hr] := H _ _ _ Hs HQ.
  by apply: (runs_weak Hs (m := k a) _ HW) => //; rewrite /mbind E.
- by move=> [h' E Hs] _; exists h'; rewrite // /mbind E.
Qed.
Lemma runs_ret h (a : A) (b : B) Q : Q a b h -> runs h (mret a) (Ok b) Q W.
Proof. by move=> H; exists a, h; split=> //; exact: step_refl. Qed.
Lemma runs_err h e Q : runs h (lift (Err e)) (Err e) Q W.
Proof. by exists h => //; exact: step_refl. Qed.
Lemma runs_post h (m : mem F A) (r : res B) (Q1 Q : A -> B -> heap -> Prop) : runs h m r Q1 W -> (forall a b h', step h W h' -> Q1 a b h' -> Q a b h') -> runs h m r Q W.
Proof. by case: r => //= b [a [h' [E Hs H]]] HQ; exists a, h'; split=> //; exact: HQ. Qed.
End Rules.

Section Rules2.
Variables (A B C : Type) (W : seq loc).
Implicit Types (Q : A -> B -> heap -> Prop).
Lemma runs_lift h (r : res C) (k : C -> mem F A) (k' : C -> res B) Q :
  (forall c, r = Ok c -> runs h (k c) (k' c) Q W) -> runs h (mbind (lift r) k) (bind r k') Q W.
Proof. by case: r => [c|e] H; [exact: (H c) | exists h; rewrite // ; exact: step_refl]. Qed.
Lemma runs_lift_end h (r : res C) (k : C -> mem F A) (Q : A -> C -> heap -> Prop) :
  (forall c, r = Ok c -> runs h (k c) (Ok c) Q W) -> runs h (mbind (lift r) k) r Q W.
Proof. by case: r => [c|e] H; [exact: (H c) | exists h; rewrite // ; exact: step_refl]. Qed.
Lemma runs_load h l (k : nd -> mem F A) (r : res B) Q : runs h (k (at_loc h l)) r Q W -> runs h (mbind (load l) k) r Q W.
Proof. by []. Qed.
Lemma runs_alloc h D (k : loc -> mem F A) (r : res B) Q : runs (rcons h D) (k (size h)) r Q W -> runs h (mbind (alloc D) k) r Q W.
Proof. by apply: runs_from; first exact: step_alloc. Qed.
Lemma runs_update h op l D T (k : unit -> mem F A) (k' : nd -> res B) Q : l \in W -> (l < size h)%N -> at_loc h l = D ->
  (forall D', op D T = Ok D' -> runs (set_nth (zeros F [::]) h l D') (k tt) (k' D') Q W) ->
  runs h (mbind (update op l T) k) (bind (op D T) k') Q W.
Proof.
move=> HW Hl <- H; case E: (op (at_loc h l) T) => [D'|e] /=; last first.
  by exists h; [rewrite /mbind /update E | exact: step_refl].
by apply: runs_from (H D' E); [exact: step_set | rewrite /mbind /update E].
Qed.
(** The last update of a method. *)
Lemma runs_update_end h op l D T (Q : unit -> nd -> heap -> Prop) : l \in W -> (l < size h)%N -> at_loc h l = D ->
  (forall D', op D T = Ok D' -> Q tt D' (set_nth (zeros F [::]) h l D')) -> runs h (update op l T) (op D T) Q W.
Proof.
move=> HW Hl <- H; case E: (op (at_loc h l) T) => [D'|e] /=; last first.
  by exists h; [rewrite /update E | exact: step_refl].
by exists tt, (set_nth (zeros F [::]) h l D'); split; [rewrite /update E | exact: step_set | exact: H].
Qed.
End Rules2.
End Runs.

(** One step of both programs, and an update in place in both. *)
Ltac rstep :=
  lazymatch goal with
  | |- @runs ?F ?A ?B ?h (@mbind _ ?C _ (lift ?r) ?k) (bind _ ?k') ?Q ?W => refine (@runs_lift F A B C W h r k k' Q _); intros ? _; cbv beta
  | |- @runs ?F ?A ?B ?h (@mbind _ _ _ (load ?l) ?k) ?r ?Q ?W => refine (@runs_load F A B W h l k r Q _); cbv beta
  | |- @runs ?F ?A ?B ?h (@mbind _ _ _ (alloc ?D) ?k) ?r ?Q ?W => refine (@runs_alloc F A B W h D k r Q _); cbv beta
  end.
Ltac rup ne ne' :=
  lazymatch goal with
  | |- @runs ?F ?A ?B ?h (@mbind _ _ _ (_ ?l ?T) ?k) (bind (?op ?D _) ?k') ?Q ?W => refine (@runs_update F A B W h op l D T k k' Q _ _ _ _)
  end; [by [] | by rewrite ?size_set ?size_set // ?size_set | by rewrite ?at_set ?eqxx ?ne ?ne' ?eqxx | intros ? _; cbv beta].

Section Methods.
Variable F : rcfType.
Local Notation nd := (nd F).
Local Notation heap := (heap F).
Local Notation at_loc := (@at_loc F).
Variables (nx : nat) (m : hmodel F) (log : F -> F).
Notation dm := (hm_val m).
Notation md := (nm_md dm).

Lemma set_set (h : heap) l A B : (l < size h)%N ->
  set_nth (zeros F [::]) (set_nth (zeros F [::]) h l A) l B = set_nth (zeros F [::]) h l B.
Proof. by move=> Hl; rewrite set_set_nth eqxx. Qed.

(** ** correction_diff *)
Lemma correction_diff_runs h kappa s active u c (o : hfilter F) W :
  let ldx := hf_dx o in let ldP := hf_dP o in
  ldx != ldP -> (ldx < size h)%N -> (ldP < size h)%N -> ldx \in W -> ldP \in W ->
  runs h (h_correction_diff nx m kappa s active u c o) (nd_correction_diff nx dm kappa s active u c (NDS (at_loc h ldx) (at_loc h ldP)))
    (fun c1 p h' => c1 = p.1 /\ h' = set_nth (zeros F [::]) (set_nth (zeros F [::]) h ldx (nds_x p.2)) ldP (nds_P p.2)) W.
Proof.
move=> ldx ldP ne Hx HP Wx WP; rewrite /h_correction_diff /nd_correction_diff; cbn [nds_x nds_P]; cbv zeta.
do 2 rstep; rewrite -/ldx -/ldP; do 8 rstep.
rstep.
have ne' : (ldP == ldx) = false by rewrite eq_sym; apply: negbTE.
move/negbTE: ne => ne.
rup ne ne'; rstep.
rup ne ne'; rewrite set_set //; rstep.
rup ne ne'; do 2 rstep.
rup ne ne'; rewrite set_set ?size_set //.
exact: runs_ret.
Qed.

(** ** correction_diff2 *)
Lemma correction_diff2_runs h kappa s active u c c1 (o : hfilter F) W :
  let ldx := hf_d2x o in let ldP := hf_d2P o in
  ldx != ldP -> (ldx < size h)%N -> (ldP < size h)%N -> ldx \in W -> ldP \in W ->
  runs h (h_correction_diff2 nx m kappa s active u c c1 o) (nd_correction_diff2 nx dm kappa s active u c c1 (NDS (at_loc h ldx) (at_loc h ldP)))
    (fun c2 p h' => c2 = p.1 /\ h' = set_nth (zeros F [::]) (set_nth (zeros F [::]) h ldx (nds_x p.2)) ldP (nds_P p.2)) W.
Proof.
move=> ldx ldP ne Hx HP Wx WP; rewrite /h_correction_diff2 /nd_correction_diff2; cbn [nds_x nds_P]; cbv zeta.
have ne' : (ldP == ldx) = false by rewrite eq_sym; apply: negbTE.
move/negbTE: ne => ne.
do 2 rstep; rewrite -/ldx -/ldP; do 16 rstep.
rstep; rup ne ne'; rstep.
rup ne ne'; rewrite set_set //; rstep.
rup ne ne'; rewrite set_set //; rstep.
rup ne ne'; rewrite set_set //; rstep.
rup ne ne'; rstep.
do 4 (rup ne ne'; rewrite set_set ?size_set //; repeat rstep).
rup ne ne'; rewrite set_set ?size_set //.
exact: runs_ret.
Qed.

(** ** likelihood_diff and likelihood_diff2 *)
Lemma likelihood_diff_runs h c c1 (o : hfilter F) W : let l := hf_dL o in (l < size h)%N -> l \in W ->
  runs h (h_likelihood_diff c c1 o) (nd_likelihood_diff c c1 (at_loc h l))
    (fun a b h' => a = b.1 /\ h' = set_nth (zeros F [::]) h l b.2) W.
Proof.
move=> l Hl Wl; rewrite /h_likelihood_diff /nd_likelihood_diff -/l; cbv zeta.
do 5 rstep; rup Hl Hl; rstep.
rup Hl Hl; rewrite set_set //; rstep.
rup Hl Hl; rewrite set_set //.
exact: runs_ret.
Qed.
Lemma likelihood_diff2_runs h c c1 c2 ch dPyCD (o : hfilter F) W : let l := hf_d2L o in (l < size h)%N -> l \in W ->
  runs h (h_likelihood_diff2 c c1 c2 ch dPyCD o) (nd_likelihood_diff2 c c1 c2 ch dPyCD (at_loc h l))
    (fun a b h' => h' = set_nth (zeros F [::]) h l b) W.
Proof.
move=> l Hl Wl; rewrite /h_likelihood_diff2 /nd_likelihood_diff2 -/l; cbv zeta.
do 5 rstep; rup Hl Hl; repeat rstep.
do 5 (rup Hl Hl; rewrite set_set //; repeat rstep).
apply: runs_update_end; [by [] | by rewrite ?size_set | by rewrite at_set eqxx |] => Dz _.
by rewrite set_set.
Qed.

(** ** update_likelihood *)
Definition Llocs (L : hnum F) : seq loc := match L with HNum _ => [::] | HArr l => [:: l] end.
Definition Lview (h : heap) (L : hnum F) : nd := match L with HNum c => c | HArr l => at_loc h l end.
(** A number has no axes, an array has one at least. *)
Definition Lok (h : heap) (L : hnum F) : Prop := (shape (Lview h L) == [::]) = if L is HNum _ then true else false.

Lemma imap2_shape f (A B C : nd) : imap2 f A B = Ok C -> shape C = shape A.
Proof. by rewrite /imap2; case: (map2 f A B) => [D|//] /=; case: eqP => // E [<-]. Qed.

Lemma lsub_runs h L T : Lok h L -> all (fun l => l < size h)%N (Llocs L) ->
  runs h (h_lsub L T) (nd_lsub (Lview h L) T)
    (fun L' D h' => [/\ D = Lview h' L', Lok h' L', all (fun l => l < size h')%N (Llocs L')
                      & forall l, l \in Llocs L' -> l \in Llocs L \/ (size h <= l)%N]) (Llocs L).
Proof.
rewrite /Lok /nd_lsub /h_lsub; case: L => [c|l] Hs; rewrite Hs /=.
- move=> _; case: (nd_sub c T) => [D|e] /=; last by exists h => //; exact: step_refl.
  case E: (shape D == [::]).
    by exists (HNum D), h; split; [rewrite /mbind /lift E | exact: step_refl | rewrite /Lok /= E].
  exists (HArr F (size h)), (rcons h D); split; [by rewrite /mbind /lift E | exact: step_alloc |].
  split; rewrite ?at_new // ?/Lok /= ?at_new ?E ?size_rcons ?ltnSn // => l.
  by rewrite inE => /eqP ->; right.
- rewrite andbT => Hl; case E: (nd_isub (at_loc h l) T) => [D|e] /=; last first.
    by exists h; [rewrite /mbind /isub_at /update E | exact: step_refl].
  exists (HArr F l), (set_nth (zeros F [::]) h l D); split; first by rewrite /mbind /isub_at /update E.
    by apply: step_set => //; rewrite inE.
  split; rewrite /Lok /= ?at_set ?eqxx ?size_set ?Hl // ?(imap2_shape E) //.
  by move=> l' ->; left.
Qed.

Lemma update_likelihood_runs h L c : Lok h L -> all (fun l => l < size h)%N (Llocs L) ->
  runs h (h_update_likelihood log L c) (nd_update_likelihood log (Lview h L) (Some c))
    (fun L' D h' => [/\ D = Lview h' L', Lok h' L', all (fun l => l < size h')%N (Llocs L')
                      & forall l, l \in Llocs L' -> l \in Llocs L \/ (size h <= l)%N]) (Llocs L).
Proof.
move=> HL Hl; rewrite /h_update_likelihood /nd_update_likelihood /the_PyC.
case: (nk_PyC c) => [PyC|]; last by exists h => //; exact: step_refl.
rewrite (_ : mbind (lift (Ok PyC)) _ = (fun PyC => mbind (lift (einsum "...kk->...k" [:: PyC])) (fun PyCD : nd => mbind (lift (einsum "...i,...ij,...j" [:: nk_e c; nk_PyI c; nk_e c]))
  (fun T : nd => mbind (h_lsub L (nd_scale 2%:R^-1 T)) (fun L0 : hnum F => h_lsub L0 (sum_last (map1 log PyCD)))))) PyC) //.
do 2 rstep.
apply: runs_bind_new (lsub_runs _ HL Hl) _ => L1 D h1 Hs [-> H1 H2 H3].
exists (Llocs L1); first by move=> l Hl' /H3[//|]; rewrite leqNgt Hl'.
apply: runs_post (lsub_runs _ H1 H2) _ => L2 D2 h2 Hs2 [-> H4 H5 H6]; split=> // l /H6[/H3[|]|Hl']; [by left|by right|].
by right; apply: leq_trans (proj1 Hs) Hl'.
Qed.

(** ** Predictions *)

(** The call returns a new array with the value [v]. *)
Definition returns_new (call : mem F loc) (v : nd) : Prop :=
  forall h, exists l h', [/\ call h = (Ok l, h'), step h [::] h', (size h <= l < size h')%N & at_loc h' l = v].

Lemma runs_call A B h call v (k : loc -> mem F A) (r : res B) Q W : returns_new call v ->
  (forall l h1, step h [::] h1 -> (size h <= l)%N -> (l < size h1)%N -> at_loc h1 l = v -> runs h1 (k l) r Q (l :: W)) ->
  runs h (mbind call k) r Q W.
Proof.
move=> /(_ h)[l [h1 [E Hs /andP[H1 H2] Hv]]] H.
apply: (runs_weak (step_sub Hs _) _ _ (H l h1 Hs H1 H2 Hv)) => //; first by rewrite /mbind E.
by move=> l' Hl'; rewrite inE => /orP[/eqP El|//]; move: Hl'; rewrite El ltnNge H1.
Qed.

Lemma transform_diff_runs h kappa u (df_dq : nd -> mem F loc) (f_dq : nd -> nd) df_di di dPi :
  (forall X, returns_new (df_dq X) (f_dq X)) ->
  runs h (h_transform_diff nx kappa u df_dq df_di di dPi) (nd_transform_diff nx kappa u (fun X => Ok (f_dq X)) df_di di dPi)
    (fun a b h' => a = b) [::].
Proof.
move=> Hn; rewrite /h_transform_diff /nd_transform_diff.
do 2 rstep; apply: runs_lift => -[didev disigma] _.
cbn [bind]; apply: (runs_call (Hn _)) => l h1 Hs Hl1 Hl2 Hv.
rstep; apply: runs_update; [by rewrite inE | by [] | exact: Hv |] => D _.
rstep; rewrite at_set eqxx; do 4 rstep.
exact: runs_ret.
Qed.

Definition state_of (h : heap) (o : hfilter F) : nstate F := NS (hf_k o) (at_loc h (hf_x o)) (at_loc h (hf_P o)).

Lemma runs_state A B h o (k : nstate F -> mem F A) (r : res B) Q W : runs h (k (state_of h o)) r Q W -> runs h (mbind (h_state o) k) r Q W.
Proof. by []. Qed.

(** After a method that rebinds some attributes: the arrays that [o'] has are
    the ones of [o] or new. *)
Lemma predict_runs h kappa o :
  runs h (h_predict nx m kappa o) (nd_ukf_predict nx md kappa (@nd_chol F) (state_of h o))
    (fun a b h' => [/\ a = (b.1, HFilter (ns_k b.2) (size h) (size h).+1 (hf_L o) (hf_dL o) (hf_d2L o) (hf_dx o) (hf_dP o) (hf_d2x o) (hf_d2P o))
                     & h' = rcons (rcons h (ns_x b.2)) (ns_P b.2)]) [::].
Proof.
rewrite /h_predict; apply: runs_state; apply: runs_lift_end => p _; do 2 rstep; apply: runs_ret; split=> //.
by rewrite size_rcons.
Qed.

Lemma correct_masked kappa s y c : nd_ukf_correct nx md kappa (@nd_chol F) s y = Ok c -> c.1 = None -> c.2 = s.
Proof.
rewrite /nd_ukf_correct; case: ifP => _; first by move=> [<-].
by do 11 (match goal with |- bind ?X _ = _ -> _ => case: X => [?|//]; cbn [bind] end); move=> [<-].
Qed.

Definition corrected_object (h : heap) (o : hfilter F) (c : option (nut F * ncorr F) * nstate F) : hfilter F :=
  if c.1 is Some _ then HFilter (ns_k c.2) (size h) (size h).+1 (hf_L o) (hf_dL o) (hf_d2L o) (hf_dx o) (hf_dP o) (hf_d2x o) (hf_d2P o) else o.
Definition corrected_heap (h : heap) (c : option (nut F * ncorr F) * nstate F) : heap :=
  if c.1 is Some _ then rcons (rcons h (ns_x c.2)) (ns_P c.2) else h.
Lemma correct_runs h kappa y o :
  runs h (h_correct nx m kappa y o) (nd_ukf_correct nx md kappa (@nd_chol F) (state_of h o) y)
    (fun a b h' => [/\ a = (b.1, corrected_object h o b), h' = corrected_heap h b & b.1 = None -> b.2 = state_of h o]) [::].
Proof.
rewrite /h_correct; apply: runs_state; apply: runs_lift_end => c Ec; rewrite /corrected_object /corrected_heap.
case E: c.1 => [d|]; last by apply: runs_ret; rewrite E; split=> // _; exact: correct_masked Ec E.
by do 2 rstep; apply: runs_ret; rewrite E size_rcons.
Qed.

Lemma prediction_diff_runs h kappa s u o : (forall k X, returns_new (hm_df_dq m k X) (nm_df_dq dm k X)) ->
  (hf_dx o < size h)%N ->
  runs h (h_prediction_diff nx m kappa s u o) (nd_prediction_diff nx dm kappa s u (NDS (at_loc h (hf_dx o)) (at_loc h (hf_dP o))))
    (fun a b h' => exists ldx ldP, [/\ a = (b.1, hf_dx o, HFilter (hf_k o) (hf_x o) (hf_P o) (hf_L o) (hf_dL o) (hf_d2L o) ldx ldP (hf_d2x o) (hf_d2P o)),
       (size h <= ldx < size h')%N, (size h <= ldP < size h')%N, ldx != ldP & at_loc h' ldx = nds_x b.2 /\ at_loc h' ldP = nds_P b.2]) [::].
Proof.
move=> Hn Hx; rewrite /h_prediction_diff /nd_prediction_diff; cbv zeta; cbn [nds_x nds_P]; do 2 rstep.
apply: runs_bind (transform_diff_runs _ _ _ _ _ _ (Hn (ns_k s))) _ => v _ h1 Hs <-.
rstep; rewrite (proj2 Hs) //; do 4 rstep; rstep; apply: runs_ret; cbn [nds_x nds_P fst snd].
have H1 := proj1 Hs; exists (size h1), (size h1).+1; rewrite at_new1 at_new2 !size_rcons; split; [by [] | | | | by []].
- by rewrite H1 leqnSn.
- by rewrite leqW // ltnSn.
- by rewrite ltn_eqF.
Qed.

Lemma prediction_diff2_runs h kappa s u v prev d o :
  nds_x d = at_loc h prev ->
  runs h (h_prediction_diff2 nx m kappa s u v prev o) (nd_prediction_diff2 nx dm kappa s u v d (NDS (at_loc h (hf_d2x o)) (at_loc h (hf_d2P o))))
    (fun a b h' => a = HFilter (hf_k o) (hf_x o) (hf_P o) (hf_L o) (hf_dL o) (hf_d2L o) (hf_dx o) (hf_dP o) (size h) (size h).+1 /\
                   h' = rcons (rcons h (nds_x b)) (nds_P b)) [::].
Proof.
move=> Hd; rewrite /h_prediction_diff2; do 3 rstep.
have -> : forall d2, nd_prediction_diff2 nx dm kappa s u v (NDS (at_loc h prev) (zeros F [::])) d2 = nd_prediction_diff2 nx dm kappa s u v d d2.
  by move=> d2; rewrite /nd_prediction_diff2; cbn [nds_x]; rewrite Hd.
by apply: runs_lift_end => d2 _; do 2 rstep; apply: runs_ret; split=> //; rewrite size_rcons.
Qed.
End Methods.
