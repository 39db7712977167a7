(** C73: a filter on a stack of states does to every element of the stack what
    the filter on that element does.  C74: without a stack, the array code
    computes what the matrix models of KalModel and KalDiffModel compute.

    Specification: [e] ranges over the indices of the stack, whose shape is
    [b] (the attribute [base_shape], base.py:41-43). *)
From Coq Require Import String Ascii.
From Verif Require Import Py.
From mathcomp Require Import all_ssreflect all_algebra.
From Verif Require Import PsdLemmas KalModel KalLemmas KalDiffModel NpModel NpLemmas NdKalModel NpOps NdCholLemmas NdTransLemmas NdFilterLemmas NdLoopLemmas NdDiffLemmas NdGradLemmas.
Set Implicit Arguments.
Unset Strict Implicit.
Unset Printing Implicit Defensive.
Import Order.TTheory GRing.Theory Num.Theory.
Local Open Scope ring_scope.

Section Spec.
Variable F : rcfType.
Local Notation nd := (nd F).

(** The vector and the matrix at an index of a stack. *)
Definition row_at n (A : nd) (e : seq nat) : 'rV[F]_n := \row_j get A (e ++ [:: nat_of_ord j]).
Definition mat_at n m (A : nd) (e : seq nat) : 'M[F]_(n, m) := \matrix_(i, j) get A (e ++ [:: nat_of_ord i; nat_of_ord j]).
(** The same with leading axes of parameters. *)
Definition rows1_at q n (A : nd) e (a : 'I_q) : 'rV[F]_n := row_at n A (e ++ [:: nat_of_ord a]).
Definition mats1_at q n (A : nd) e (a : 'I_q) : 'M[F]_n := mat_at n n A (e ++ [:: nat_of_ord a]).
Definition rows2_at q n (A : nd) e (a c : 'I_q) : 'rV[F]_n := row_at n A (e ++ [:: nat_of_ord a; nat_of_ord c]).
Definition mats2_at q n (A : nd) e (a c : 'I_q) : 'M[F]_n := mat_at n n A (e ++ [:: nat_of_ord a; nat_of_ord c]).

(** A computation on a stack against the computations on its elements: it
    succeeds exactly when all of them do, with results that [ok] relates;
    otherwise it raises the exception of one of them. *)
Definition each (b : seq nat) T M (wf : T -> Prop) (ok : T -> seq nat -> M -> Prop) (r : res T) (m : seq nat -> res M) : Prop :=
  match r with
  | Ok a => wf a /\ forall e, inb b e -> exists2 v, m e = Ok v & ok a e v
  | Err x => exists2 e, inb b e & m e = Err x
  end.

(** A measurement vector and its mask. *)
Definition meas_ok ny (y : nmeas F) : Prop := shape (nm_data y) = [:: ny] /\ size (nm_mask y) = ny.
Definition meas_of ny (y : nmeas F) : meas F ny := Meas (row_at ny (nm_data y) [::]) [set i : 'I_ny | nth false (nm_mask y) i].

Section Stack.
Variable b : seq nat.
Variables nx ny : nat.

Definition state_ok (s : nstate F) : Prop := shape (ns_x s) = b ++ [:: nx] /\ shape (ns_P s) = b ++ [:: nx; nx].
Definition state_at (s : nstate F) (e : seq nat) : fstate F nx := FS (ns_k s) (row_at nx (ns_x s) e) (mat_at nx nx (ns_P s) e).
Definition est_ok (p : nd * nd) : Prop := shape p.1 = b ++ [:: nx] /\ shape p.2 = b ++ [:: nx; nx].
Definition est_at (e : seq nat) (p : nd * nd) : 'rV[F]_nx * 'M[F]_nx := (row_at nx p.1 e, mat_at nx nx p.2 e).
(** Results of [filter] and [smooth], with the final state. *)
Definition run_ok (r : seq (nd * nd) * nstate F) : Prop := List.Forall est_ok r.1 /\ state_ok r.2.
Definition run_at (r : seq (nd * nd) * nstate F) (e : seq nat) (v : seq ('rV[F]_nx * 'M[F]_nx) * fstate F nx) : Prop :=
  v = ([seq est_at e p | p <- r.1], state_at r.2 e).
(** The log-likelihood: a stack, or the scalar it starts as (base.py:39). *)
Definition lik_ok (L : nd) : Prop := shape L = b \/ shape L = [::].
Definition lik_at (L : nd) (e : seq nat) : F := get L (if shape L == [::] then [::] else e).

(** ** From the specification to the simulation and back *)

Lemma rV_at n (A : nd) : shape A = b ++ [:: n] -> rV b n A (row_at n A).
Proof. by move=> HA; apply: rep0I => // e He j; cbn [agree]; rewrite mxE. Qed.
Lemma rM_at n m (A : nd) : shape A = b ++ [:: n; m] -> rM b n m A (mat_at n m A).
Proof. by move=> HA; apply: rep0I => // e He i j; cbn [agree]; rewrite mxE. Qed.
Lemma at_rV n (A : nd) (x : seq nat -> 'rV[F]_n) : rV b n A x -> shape A = b ++ [:: n] /\ forall e, inb b e -> x e = row_at n A e.
Proof.
move=> H; split; first exact: (proj1 H).
by move=> e He; apply/rowP => j; rewrite [RHS]mxE; symmetry; exact: (rep0E H He j).
Qed.
Lemma at_rM n m (A : nd) (M : seq nat -> 'M[F]_(n, m)) : rM b n m A M -> shape A = b ++ [:: n; m] /\ forall e, inb b e -> M e = mat_at n m A e.
Proof.
move=> H; split; first exact: (proj1 H).
by move=> e He; apply/matrixP => i j; rewrite [RHS]mxE; symmetry; exact: (rep0E H He i j).
Qed.

Lemma state_r s : state_ok s -> rstate b s (state_at s).
Proof. by case=> H1 H2; split=> //=; [exact: rV_at | exact: rM_at]. Qed.
Lemma r_state s m : rstate b s m -> state_ok s /\ forall e, inb b e -> m e = state_at s e.
Proof.
case=> Hk /at_rV[H1 E1] /at_rM[H2 E2]; split=> // e He.
by rewrite /state_at -(Hk e He) -(E1 e He) -(E2 e He); case: (m e).
Qed.
Lemma meas_r y : meas_ok ny y -> rmeas y (meas_of ny y).
Proof.
case=> H1 H2; split=> /=.
  by apply: rep0I => // -[|//] _ j; cbn [agree]; rewrite mxE.
apply: (@eq_from_nth _ false); first by rewrite size_bits H2.
move=> i; rewrite H2 => Hi; rewrite /bits (nth_map (Ordinal Hi)) ?size_enum_ord // inE.
by rewrite (nth_enum_ord (Ordinal Hi) Hi).
Qed.
Lemma meas_rs ys : List.Forall (meas_ok ny) ys -> rmeass ys [seq meas_of ny y | y <- ys].
Proof. by elim=> //= y l Hy _ IH; split=> //; exact: meas_r. Qed.
Lemma r_ests l m : rlist b (rest (nx := nx) b) l m -> List.Forall est_ok l /\ forall e, inb b e -> m e = [seq est_at e p | p <- l].
Proof.
elim: l m => [|p l IH] m /=; first by move=> H; split; [constructor|].
case=> h [t [E [/at_rV[H1 E1] /at_rM[H2 E2]] /IH[H3 E3]]]; split.
  by constructor.
by move=> e He; rewrite E // E3 // /est_at -E1 // -E2 //; case: (h e).
Qed.
Lemma lik_r L : lik_ok L -> rL b L (lik_at L).
Proof.
move=> [H|H]; [left|right].
- apply: rep0I; first by rewrite cats0.
  move=> e He; cbn [agree]; rewrite cats0 /lik_at; case: eqP => // E; move: He; rewrite -H E.
  by case: e.
- exists (get L [::]); last by move=> e He; rewrite /lik_at H eqxx.
  by apply: rep0I => // -[|//] _.
Qed.
Lemma r_lik L m : rL b L m -> lik_ok L /\ forall e, inb b e -> m e = lik_at L e.
Proof.
case=> [H|[l H E]].
- have HL : shape L = b by rewrite (proj1 H) cats0.
  split; first by left.
  move=> e He; rewrite /lik_at; case: eqP => E.
    by move: (He) (rep0E H He); rewrite -HL E; case: e He => // _ _ /= <-.
  by have := rep0E H He; cbn [agree]; rewrite cats0 => <-.
- have HL : shape L = [::] by exact: (proj1 H).
  split; first by right.
  move=> e He; rewrite E // /lik_at HL eqxx; symmetry; exact: (rep0E H (e := [::]) isT).
Qed.
Lemma sim_each T M (R : T -> (seq nat -> M) -> Prop) (wf : T -> Prop) (ok : T -> seq nat -> M -> Prop) r m :
  sim b R r m -> (forall a m', R a m' -> wf a /\ forall e, inb b e -> ok a e (m' e)) -> each b wf ok r m.
Proof.
case: r => [a|x] //= [m' [E H]] HR; have [H1 H2] := HR _ _ H; split=> // e He.
by exists (m' e); [exact: E | exact: H2].
Qed.
Lemma r_run r m : rpair (rlist b (rest (nx := nx) b)) (rstate b (nx := nx)) r m -> run_ok r /\ forall e, inb b e -> run_at r e (m e).
Proof.
case=> /r_ests[H1 E1] /r_state[H2 E2]; split=> // e He.
by rewrite /run_at -E1 // -E2 //; case: (m e).
Qed.

(** * C73: filtering, smoothing and the log-likelihood *)

Section Runs.
Variables (md : nmodel F) (mm : seq nat -> model F nx ny).
(** The functions of the model are vectorised: applied to a stack of states,
    and to sigma points of a stack of states, they give what the functions of
    the element's model give. *)
Hypothesis Hmd : rmodel b md mm.
Variables (s : nstate F) (ys : seq (nmeas F)).
Hypothesis Hs : state_ok s.
Hypothesis Hys : List.Forall (meas_ok ny) ys.
(** The stack is not empty. *)
Variable e0 : seq nat.
Hypothesis He0 : inb b e0.
Variables (log : F -> F) (L : nd).
Hypothesis HL : lik_ok L.
Notation yms := [seq meas_of ny y | y <- ys].

Section Ukf.
Variables (kp kc : F) (nrp nrc : nd -> res nd) (rp rc : seq nat -> 'M[F]_nx -> res 'M[F]_nx).
Hypotheses (Hrp : lifts b nrp rp) (Hrc : lifts b nrc rc).
Notation nf := (nd_ukf nx md kp kc nrp nrc).
Notation fl e := (ukf (mm e) kp kc (rp e) (rc e)).

Theorem C73_ukf_filter : each b run_ok run_at (nd_filter nf s ys) (fun e => filter (fl e) (state_at s e) yms).
Proof. exact: sim_each (nd_filter_sim (nd_ukf_rfilter Hmd _ _ Hrp Hrc) (state_r Hs) (meas_rs Hys)) r_run. Qed.
Theorem C73_ukf_smooth : each b run_ok run_at (nd_smooth nf s ys) (fun e => smooth (fl e) (state_at s e) yms).
Proof. exact: sim_each (nd_smooth_sim (nd_ukf_rfilter Hmd _ _ Hrp Hrc) He0 (state_r Hs) (meas_rs Hys)) r_run. Qed.
Theorem C73_ukf_merit : each b lik_ok (fun Z e v => v = lik_at Z e) (nd_pem_merit nf log s L ys)
  (fun e => pem_merit (fl e) log (state_at s e) (lik_at L e) yms).
Proof. exact: sim_each (nd_pem_merit_sim (nd_ukf_rfilter Hmd _ _ Hrp Hrc) He0 log (state_r Hs) (lik_r HL) (meas_rs Hys)) r_lik. Qed.
End Ukf.

Theorem C73_ekf_filter : each b run_ok run_at (nd_filter (nd_ekf md) s ys) (fun e => filter (ekf (mm e)) (state_at s e) yms).
Proof. exact: sim_each (nd_filter_sim (nd_ekf_rfilter Hmd) (state_r Hs) (meas_rs Hys)) r_run. Qed.
Theorem C73_ekf_smooth : each b run_ok run_at (nd_smooth (nd_ekf md) s ys) (fun e => smooth (ekf (mm e)) (state_at s e) yms).
Proof. exact: sim_each (nd_smooth_sim (nd_ekf_rfilter Hmd) He0 (state_r Hs) (meas_rs Hys)) r_run. Qed.
Theorem C73_ekf_merit : each b lik_ok (fun Z e v => v = lik_at Z e) (nd_pem_merit (nd_ekf md) log s L ys)
  (fun e => pem_merit (ekf (mm e)) log (state_at s e) (lik_at L e) yms).
Proof. exact: sim_each (nd_pem_merit_sim (nd_ekf_rfilter Hmd) He0 log (state_r Hs) (lik_r HL) (meas_rs Hys)) r_lik. Qed.
End Runs.

(** * C73: gradient and Hessian *)

Section Derivatives.
Variable nq : nat.
Definition grad_ok (g : ngstate F) : Prop :=
  [/\ state_ok (ng_s g), lik_ok (ng_L g),
      shape (nds_x (ng_d g)) = b ++ [:: nq; nx] /\ shape (nds_P (ng_d g)) = b ++ [:: nq; nx; nx] &
      shape (ng_dL g) = b ++ [:: nq]].
Definition grad_at (g : ngstate F) (e : seq nat) : gstate F nx nq :=
  GS (state_at (ng_s g) e) (lik_at (ng_L g) e) (DS (rows1_at nx (nds_x (ng_d g)) e) (mats1_at nx (nds_P (ng_d g)) e))
     (fun a => get (ng_dL g) (e ++ [:: nat_of_ord a])).
Definition hess_ok (h : nhstate F) : Prop :=
  [/\ grad_ok (nh_g h),
      shape (nds_x (nh_d2 h)) = b ++ [:: nq; nq; nx] /\ shape (nds_P (nh_d2 h)) = b ++ [:: nq; nq; nx; nx] &
      shape (nh_d2L h) = b ++ [:: nq; nq]].
Definition hess_at (h : nhstate F) (e : seq nat) : hstate F nx nq :=
  HS (grad_at (nh_g h) e) (D2S (rows2_at nx (nds_x (nh_d2 h)) e) (mats2_at nx (nds_P (nh_d2 h)) e))
     (fun a c => get (nh_d2L h) (e ++ [:: nat_of_ord a; nat_of_ord c])).

Lemma grad_r g : grad_ok g -> rgs b g (grad_at g).
Proof.
case=> H1 H2 [H3 H4] H5; split; [exact: state_r | exact: lik_r | split | ]; apply: rep0I => // e He a.
- by move=> j; cbn [agree]; rewrite mxE -catA.
- by move=> i j; cbn [agree]; rewrite mxE -catA.
Qed.
Lemma hess_r h : hess_ok h -> rhs b h (hess_at h).
Proof.
case=> H1 [H2 H3] H4; split; [exact: grad_r | split | ]; apply: rep0I => // e He a c.
- by move=> j; cbn [agree]; rewrite mxE -catA.
- by move=> i j; cbn [agree]; rewrite mxE -catA.
Qed.

Variables (dm : ndmodel F) (mm : seq nat -> dmodel F nx ny nq).
Hypothesis Hdm : rdmodel b dm mm.
Variables (log : F -> F) (kp kc : F) (ys : seq (nmeas F)).
Hypothesis Hys : List.Forall (meas_ok ny) ys.
Notation yms := [seq meas_of ny y | y <- ys].

Theorem C73_gradient g : grad_ok g ->
  each b (fun Z => shape Z = b ++ [:: nq]) (fun Z e v => forall a, v a = get Z (e ++ [:: nat_of_ord a]))
    (nd_pem_gradient nx dm log kp kc g ys) (fun e => pem_gradient (mm e) log kp kc (grad_at g e) yms).
Proof.
move=> Hg; refine (sim_each (nd_pem_gradient_sim log Hdm kp kc (grad_r Hg) (meas_rs Hys)) _) => Z z H.
split; first exact: (proj1 H).
by move=> e He a; symmetry; exact: (rep0E H He a).
Qed.
Theorem C73_hessian h : hess_ok h ->
  each b (fun Z => shape Z = b ++ [:: nq; nq]) (fun Z e v => forall a c, v a c = get Z (e ++ [:: nat_of_ord a; nat_of_ord c]))
    (nd_pem_hessian nx dm log kp kc h ys) (fun e => pem_hessian (mm e) log kp kc (hess_at h e) yms).
Proof.
move=> Hh; refine (sim_each (nd_pem_hessian_sim log Hdm kp kc (hess_r Hh) (meas_rs Hys)) _) => Z z H.
split; first exact: (proj1 H).
by move=> e He a c; symmetry; exact: (rep0E H He a c).
Qed.
End Derivatives.
End Stack.

(** * C74: a single filter *)

(** The same exception, or results that [ok] relates. *)
Definition same T M (ok : T -> M -> Prop) (r : res T) (m : res M) : Prop :=
  match r, m with Ok a, Ok v => ok a v | Err x, Err y => x = y | _, _ => False end.
Lemma each_same T M (wf : T -> Prop) (ok : T -> seq nat -> M -> Prop) r m :
  each [::] wf ok r m -> same (fun a v => wf a /\ ok a [::] v) r (m [::]).
Proof.
case: r => [a [H1 H2]|x [e]] /=; first by have [v -> H] := H2 [::] isT.
by case: e => // _ ->.
Qed.

Section Single.
Variables nx ny nq : nat.
Variables (dm : ndmodel F) (mm : dmodel F nx ny nq).
Hypothesis Hdm : rdmodel [::] dm (fun=> mm).
Notation md := (nm_md dm).
Notation mod := (dm_md mm).
Variables (s : nstate F) (ys : seq (nmeas F)) (log : F -> F) (L : F) (kp kc : F).
Hypothesis Hs : state_ok [::] nx s.
Hypothesis Hys : List.Forall (meas_ok ny) ys.
Notation yms := [seq meas_of ny y | y <- ys].
Notation st := (state_at nx s [::]).
Notation runs := (same (fun r v => run_ok [::] nx r /\ run_at r [::] v)).

Theorem C74_ukf (nf := nd_ukf nx md kp kc (@nd_chol F) (@nd_chol F)) (fl := ukf mod kp kc (@chol F nx) (@chol F nx)) :
  [/\ runs (nd_filter nf s ys) (filter fl st yms),
      runs (nd_smooth nf s ys) (smooth fl st yms) &
      same (fun Z v => shape Z = [::] /\ v = get Z [::]) (nd_pem_merit nf log s (scalar L) ys) (pem_merit fl log st L yms)].
Proof.
have H := @lifts_chol F [::] nx; split.
- exact: each_same (C73_ukf_filter (rd_md Hdm) Hs Hys kp kc H H).
- exact: each_same (C73_ukf_smooth (rd_md Hdm) Hs Hys (e0 := [::]) isT kp kc H H).
- have HL : lik_ok [::] (scalar L) by left.
  have := each_same (C73_ukf_merit (rd_md Hdm) Hs Hys (e0 := [::]) isT log HL kp kc H H).
  rewrite /same; case: (nd_pem_merit _ _ _ _ _) => [Z|x]; case: (pem_merit _ _ _ _ _) => [v|x'] //= [HZ ->].
  by have E : shape Z = [::] by [case: HZ]; rewrite /lik_at E.
Qed.
Theorem C74_ekf :
  [/\ runs (nd_filter (nd_ekf md) s ys) (filter (ekf mod) st yms),
      runs (nd_smooth (nd_ekf md) s ys) (smooth (ekf mod) st yms) &
      same (fun Z v => shape Z = [::] /\ v = get Z [::]) (nd_pem_merit (nd_ekf md) log s (scalar L) ys) (pem_merit (ekf mod) log st L yms)].
Proof.
split.
- exact: each_same (C73_ekf_filter (rd_md Hdm) Hs Hys).
- exact: each_same (C73_ekf_smooth (rd_md Hdm) Hs Hys (e0 := [::]) isT).
- have HL : lik_ok [::] (scalar L) by left.
  have := each_same (C73_ekf_merit (rd_md Hdm) Hs Hys (e0 := [::]) isT log HL).
  rewrite /same; case: (nd_pem_merit _ _ _ _ _) => [Z|x]; case: (pem_merit _ _ _ _ _) => [v|x'] //= [HZ ->].
  by have E : shape Z = [::] by [case: HZ]; rewrite /lik_at E.
Qed.
Theorem C74_gradient g : grad_ok [::] nx nq g ->
  same (fun Z v => shape Z = [:: nq] /\ forall a, v a = get Z [:: nat_of_ord a])
    (nd_pem_gradient nx dm log kp kc g ys) (pem_gradient mm log kp kc (grad_at nx nq g [::]) yms).
Proof. by move=> Hg; exact: each_same (C73_gradient Hdm log kp kc Hys Hg). Qed.
Theorem C74_hessian h : hess_ok [::] nx nq h ->
  same (fun Z v => shape Z = [:: nq; nq] /\ forall a c, v a c = get Z [:: nat_of_ord a; nat_of_ord c])
    (nd_pem_hessian nx dm log kp kc h ys) (pem_hessian mm log kp kc (hess_at nx nq h [::]) yms).
Proof. by move=> Hh; exact: each_same (C73_hessian Hdm log kp kc Hys Hh). Qed.
End Single.

(** * Every model can be vectorised *)

Section Vectorise.
Variable b : seq nat.
Variables nx ny nq : nat.

Fixpoint tensor_at (cs : seq nat) : arr F cs -> seq nat -> F :=
  match cs with
  | [::] => fun t _ => t
  | n :: cs' => fun t c => match insub (head 0%N c) : option 'I_n with Some i => tensor_at (t i) (behead c) | None => 0 end
  end.
(** A function of the state, which may depend on the element of the stack,
    applied along the last axis. *)
Definition nd_apply (cs : seq nat) (g : seq nat -> 'rV[F]_nx -> arr F cs) (X : nd) : nd :=
  let d := (size (shape X)).-1 in
  ND (take d (shape X) ++ cs)
     (fun i => tensor_at (g (drop (d - size b) (take d i)) (row_at nx X (take d i))) (drop d i)).

Lemma tensor_agree cs (t : arr F cs) (h : seq nat -> F) : (forall c, h c = tensor_at t c) -> agree h t.
Proof.
elim: cs t h => [|n cs IH] t h H /=; first by rewrite H.
move=> i; apply: IH => c; rewrite H /= insubT //= => Hi; congr (tensor_at (t _) _).
exact: val_inj.
Qed.

Lemma nd_apply_vecf cs (g : seq nat -> 'rV[F]_nx -> arr F cs) : vecf b (nd_apply g) g.
Proof.
split=> [X x HX|k X XM HX]; rewrite /nd_apply (proj1 HX).
- rewrite cat0s size_cat addn1 /= take_size_cat //; apply: rep0I => // e He; apply: tensor_agree => c /=.
  rewrite -(inb_size He) take_size_cat // drop_size_cat // subnn drop0.
  by congr (tensor_at (g e _) c); apply/rowP => j; rewrite mxE; exact: (rep0E HX He j).
- rewrite cat_cons cat0s /= size_cat addn1 /= take_size_cat //; apply: rep1I => // e He s; apply: tensor_agree => c /=.
  rewrite -(inb_size He) take_size_cat // drop_size_cat // subSn // subnn /= drop0.
  by congr (tensor_at (g e _) c); apply/rowP => j; rewrite !mxE; exact: (rep1E HX He s j).
Qed.

Variables (mm : seq nat -> dmodel F nx ny nq) (R : 'M[F]_ny) (dR : 'I_nq -> 'M[F]_ny) (d2R : 'I_nq -> 'I_nq -> 'M[F]_ny).
(** The noise of the measurements is shared. *)
Hypothesis HR : forall e, [/\ md_R (dm_md (mm e)) = R, dm_dR_dq (mm e) = dR & dm_d2R_dq2 (mm e) = d2R].

Definition vectorise : ndmodel F :=
  NDModel
    (NModel
      (fun k => nd_apply (cs := [:: nx]) (fun e x j => md_f (dm_md (mm e)) k x 0 j))
      (fun k => nd_apply (cs := [:: nx; nx]) (fun e x i j => md_df_dx (dm_md (mm e)) k x i j))
      (fun k => nd_apply (cs := [:: nx; nx]) (fun e x i j => md_Q (dm_md (mm e)) k x i j))
      (fun k => nd_apply (cs := [:: ny]) (fun e x j => md_h (dm_md (mm e)) k x 0 j))
      (fun k => nd_apply (cs := [:: nx; ny]) (fun e x i j => md_dh_dx (dm_md (mm e)) k x i j))
      (ND [:: ny; ny] (tensor_at (cs := [:: ny; ny]) (fun i j => R i j))))
    (fun k => nd_apply (cs := [:: nq; nx]) (fun e x a j => dm_df_dq (mm e) k x a 0 j))
    (fun k => nd_apply (cs := [:: nq; nx; nx]) (fun e x a i j => dm_dQ_dq (mm e) k x a i j))
    (fun k => nd_apply (cs := [:: nx; nx; nx]) (fun e x l i j => dm_dQ_dx (mm e) k x l i j))
    (fun k => nd_apply (cs := [:: nq; ny]) (fun e x a j => dm_dh_dq (mm e) k x a 0 j))
    (ND [:: nq; ny; ny] (tensor_at (cs := [:: nq; ny; ny]) (fun a i j => dR a i j)))
    (fun k => nd_apply (cs := [:: nq; nq; nx]) (fun e x a c j => dm_d2f_dq2 (mm e) k x a c 0 j))
    (fun k => nd_apply (cs := [:: nx; nx; nx]) (fun e x a c j => dm_d2f_dx2 (mm e) k x a c 0 j))
    (fun k => nd_apply (cs := [:: nq; nx; nx]) (fun e x a c j => dm_d2f_dx_dq (mm e) k x a c 0 j))
    (fun k => nd_apply (cs := [:: nq; nq; nx; nx]) (fun e x a c i j => dm_d2Q_dq2 (mm e) k x a c i j))
    (fun k => nd_apply (cs := [:: nx; nx; nx; nx]) (fun e x a c i j => dm_d2Q_dx2 (mm e) k x a c i j))
    (fun k => nd_apply (cs := [:: nq; nx; nx; nx]) (fun e x a c i j => dm_d2Q_dx_dq (mm e) k x a c i j))
    (fun k => nd_apply (cs := [:: nq; nq; ny]) (fun e x a c j => dm_d2h_dq2 (mm e) k x a c 0 j))
    (fun k => nd_apply (cs := [:: nx; nx; ny]) (fun e x a c j => dm_d2h_dx2 (mm e) k x a c 0 j))
    (fun k => nd_apply (cs := [:: nq; nx; ny]) (fun e x a c j => dm_d2h_dx_dq (mm e) k x a c 0 j))
    (ND [:: nq; nq; ny; ny] (tensor_at (cs := [:: nq; nq; ny; ny]) (fun a c i j => d2R a c i j))).

Theorem C73_vectorise : rdmodel b vectorise mm.
Proof.
split=> //=; try by move=> k; exact: nd_apply_vecf.
- split=> //=; try by move=> k; exact: nd_apply_vecf.
  exists R; last by move=> e _; have [] := HR e.
  by apply: rep0I => // -[|//] _; apply: tensor_agree.
- exists dR; last by move=> e _ a; have [_ ->] := HR e.
  by apply: rep0I => // -[|//] _; apply: tensor_agree.
- exists d2R; last by move=> e _ a c; have [_ _ ->] := HR e.
  by apply: rep0I => // -[|//] _; apply: tensor_agree.
Qed.
End Vectorise.

(** * Stacks of proper filters do not fail *)

Section Total.
Variables nx ny : nat.
Lemma filter_total (fl : filter_class F nx ny) (Inv : fstate F nx -> Prop) :
  (forall s, Inv s -> exists s' X, predict fl s = Ok (s', X) /\ Inv s') ->
  (forall s y, Inv s -> exists s' c, correct fl s y = Ok (s', c) /\ Inv s') ->
  forall s ys, Inv s -> exists r, filter fl s ys = Ok r.
Proof.
move=> Hp Hc s ys; elim: ys s => [|y ys IH] s Hs; first by exists ([::], s).
have [s1 [c [E1 H1]]] := Hc s y Hs.
case: ys IH => [|y' ys] IH; first by rewrite /= E1 /=; eexists.
have [s2 [X [E2 H2]]] := Hp s1 H1; have [r Er] := IH s2 H2.
exists ((fs_x s1, fs_P s1) :: r.1, r.2).
have -> : filter fl s [:: y, y' & ys] = let* c := correct fl s y in let* p := predict fl c.1 in let* r := filter fl p.1 (y' :: ys) in Ok ((fs_x c.1, fs_P c.1) :: r.1, r.2) by [].
by rewrite E1; cbn [bind fst]; rewrite E2; cbn [bind fst]; rewrite Er.
Qed.
Variable b : seq nat.
Variables (md : nmodel F) (mm : seq nat -> model F nx ny).
Hypothesis Hmd : rmodel b md mm.
Variables (s : nstate F) (ys : seq (nmeas F)).
Hypothesis Hs : state_ok b nx s.
Hypothesis Hys : List.Forall (meas_ok ny) ys.

Theorem C73_ekf_total :
  (forall e, inb b e -> [/\ psd (mat_at nx nx (ns_P s) e), forall k x, psd (md_Q (mm e) k x) & pd (md_R (mm e))]) ->
  exists r, nd_filter (nd_ekf md) s ys = Ok r.
Proof.
move=> H; have := C73_ekf_filter Hmd Hs Hys.
case: (nd_filter _ _ _) => [r|x] /=; first by exists r.
case=> e He; have [HP HQ HR] := H e He.
have [||r ->] // := @filter_total (ekf (mm e)) (fun s => psd (fs_P s)) _ _ (state_at nx s e) [seq meas_of ny y | y <- ys] HP.
- move=> s' Hs'; have [s2 [X [E _ P]]] := ekf_predict_psd Hs' (HQ (fs_k s') (fs_x s')).
  by exists s2, X.
- move=> s' y Hs'; have [s2 [c [E _ P _ _]]] := ekf_correct_pd y Hs' HR.
  by exists s2, c.
Qed.
Theorem C73_ukf_total kp kc nrp nrc (rp rc : seq nat -> 'M[F]_nx -> res 'M[F]_nx) :
  lifts b nrp rp -> lifts b nrc rc ->
  0 <= kp -> 0 < nx%:R + kp -> 0 <= kc -> 0 < nx%:R + kc ->
  (forall e, inb b e -> [/\ is_root (rp e), is_root (rc e), pd (mat_at nx nx (ns_P s) e), forall k x, pd (md_Q (mm e) k x) & pd (md_R (mm e))]) ->
  exists r, nd_filter (nd_ukf nx md kp kc nrp nrc) s ys = Ok r.
Proof.
move=> Hrp Hrc kp0 mp kc0 mc H; have := C73_ukf_filter Hmd Hs Hys kp kc Hrp Hrc.
case: (nd_filter _ _ _) => [r|x] /=; first by exists r.
case=> e He; have [rrp rrc HP HQ HR] := H e He.
have [||r ->] // := @filter_total (ukf (mm e) kp kc (rp e) (rc e)) (fun s => pd (fs_P s)) _ _ (state_at nx s e) [seq meas_of ny y | y <- ys] HP.
- move=> s' Hs'; have [s2 [X [E _ P]]] := ukf_predict_pd kp0 mp rrp Hs' (HQ (fs_k s') (fs_x s')).
  by exists s2, X.
- move=> s' y Hs'; have [s2 [c [E _ P _]]] := ukf_correct_pd y kc0 mc rrc Hs' HR.
  by exists s2, c.
Qed.
End Total.

(** * A concrete case: two filters with different states and different models *)

Section Example.
Let mm (e : seq nat) : dmodel F 1 1 0 :=
  DModel (Model (fun _ x => (nth 0%N e 0%N).+1%:R *: x) (fun _ _ => (nth 0%N e 0%N).+1%:R%:M) (fun _ _ => 1%:M) (fun _ x => x) (fun _ _ => 1%:M) 1%:M)
    (fun _ _ _ => 0) (fun _ _ _ => 0) (fun _ _ _ => 0) (fun _ _ _ => 0) (fun _ => 0)
    (fun _ _ _ _ => 0) (fun _ _ _ _ => 0) (fun _ _ _ _ => 0) (fun _ _ _ _ => 0) (fun _ _ _ _ => 0) (fun _ _ _ _ => 0)
    (fun _ _ _ _ => 0) (fun _ _ _ _ => 0) (fun _ _ _ _ => 0) (fun _ _ => 0).
Let dm := vectorise [:: 2%N] mm 1%:M (fun=> 0 : 'M[F]_1) (fun _ _ => 0 : 'M[F]_1).
Let s : nstate F := NS 0 (ND [:: 2; 1]%N (fun i => (nth 0%N i 0%N)%:R)) (ND [:: 2; 1; 1]%N (fun=> 1)).
Let ys : seq (nmeas F) := [:: NMeas (ND [:: 1%N] (fun=> 1)) [:: false]; NMeas (ND [:: 1%N] (fun=> 2%:R)) [:: false]; NMeas (ND [:: 1%N] (fun=> 0)) [:: true]].

Example C73_nonvacuous :
  [/\ rdmodel [:: 2%N] dm mm, state_ok [:: 2%N] 1 s, List.Forall (meas_ok 1) ys, state_at 1 s [:: 0%N] <> state_at 1 s [:: 1%N]
    & md_f (dm_md (mm [:: 0%N])) 0 <> md_f (dm_md (mm [:: 1%N])) 0] /\
  (exists r, nd_filter (nd_ukf 1 (nm_md dm) 1 1 (@nd_chol F) (@nd_chol F)) s ys = Ok r) /\
  (exists r, nd_filter (nd_ekf (nm_md dm)) s ys = Ok r).
Proof.
have Hdm : rdmodel [:: 2%N] dm mm by apply: C73_vectorise.
have Hs : state_ok [:: 2%N] 1 s by [].
have Hys : List.Forall (meas_ok 1) ys by do 3 constructor=> //.
have HP e : mat_at 1 1 (ns_P s) e = 1%:M by apply/matrixP => i j; rewrite !mxE !ord1.
split; last split.
- split=> //.
    move=> /(congr1 (fun t => fs_x t 0 0)) /=; rewrite !mxE /= => /eqP.
    by rewrite eq_sym oner_eq0.
  move=> /(congr1 (fun h : 'rV[F]_1 -> 'rV[F]_1 => h (const_mx 1) 0 0)) /=; rewrite !mxE !mulr1 => /eqP.
  by rewrite eqr_nat.
- apply: (C73_ukf_total (rd_md Hdm) Hs Hys (@lifts_chol F [:: 2%N] 1) (@lifts_chol F [:: 2%N] 1)) ; try exact: ler01; try (by rewrite addr_gt0 // ltr01).
  by move=> e He; rewrite HP; split=> *; first [exact: chol_is_root | exact: pd1].
- apply: (C73_ekf_total (rd_md Hdm) Hs Hys) => e He; rewrite HP.
  by split=> *; [exact: psd1 | exact: psd1 | exact: pd1].
Qed.
End Example.
End Spec.
