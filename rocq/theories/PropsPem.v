(** The prediction-error merit: C42 for the unscented filter, C45 for the
    extended filter. *)
From Coq Require Import String Reals Lra.
From Verif Require Import Py.
From mathcomp Require Import all_ssreflect all_algebra.
From Verif Require Import RealField McRing KalModel PsdLemmas CholLemmas UtLemmas GainLemmas PropsUt KalLemmas PropsKal.
Set Implicit Arguments.
Unset Strict Implicit.
Unset Printing Implicit Defensive.
Import Order.TTheory GRing.Theory Num.Theory.
Local Open Scope ring_scope.

(** * C42 *)

Local Notation F := R_rcfType.

Lemma ln_mul (x y : F) : 0 < x -> 0 < y -> ln (x * y) = ln x + ln y.
Proof. by move=> /RltP x0 /RltP y0; apply: ln_mult. Qed.
Lemma ln_prod n (f : 'I_n -> F) : (forall i, 0 < f i) -> ln (\prod_i f i) = \sum_i ln (f i) /\ 0 < \prod_i f i.
Proof.
move=> H; apply: (big_ind2 (fun (a b : F) => ln a = b /\ 0 < a)).
- by split; [exact: ln_1|exact: ltr01].
- by move=> a b c d [E1 P1] [E2 P2]; rewrite ln_mul // E1 E2 mulr_gt0.
- by move=> i _.
Qed.
Lemma ln_expn (x : F) n : 0 < x -> ln (x ^+ n) = n%:R * ln x.
Proof.
move=> x0; elim: n => [|n IH]; first by rewrite expr0 mul0r; exact: ln_1.
by rewrite exprS ln_mul ?exprn_gt0 // IH -[n.+1]add1n natrD mulrDl mul1r.
Qed.
Lemma ln_div (x y : F) : 0 < x -> 0 < y -> ln (x / y) = ln x - ln y.
Proof.
move=> x0 y0; have E : x / y * y = x by apply: divfK; rewrite gt_eqF.
by rewrite -{2}E (ln_mul (divr_gt0 x0 y0) y0) addrK.
Qed.
Lemma ln_sqrt (x : F) : 0 < x -> ln (Num.sqrt x) = 2%:R^-1 * ln x.
Proof.
move=> x0; rewrite -{2}(sqr_sqrtr (ltW x0)) ln_expn ?sqrtr_gt0 //.
by rewrite mulrA mulVf ?mul1r // pnatr_eq0.
Qed.

Section Merit.
Variables nx ny : nat.
Implicit Types (md : model F nx ny) (s : fstate F nx) (y : meas F ny) (flt : filter_class F nx ny).

(** What the corrections of a run computed: [None] for a fully masked
    sample, otherwise innovation, covariance and so on. *)
Fixpoint innovations flt s (ys : seq (meas F ny)) : res (seq (option (corr_data F nx ny))) :=
  match ys with
  | [::] => Ok [::]
  | y :: ys' =>
      let* c := correct flt s y in
      match ys' with
      | [::] => Ok [:: c.2]
      | _ => let* p := predict flt c.1 in
             let* r := innovations flt p.1 ys' in
             Ok (c.2 :: r)
      end
  end.

Lemma innovations_step flt s y ys : innovations flt s (y :: ys) =
  let* c := correct flt s y in
  match ys with
  | [::] => Ok [:: c.2]
  | _ => let* p := predict flt c.1 in let* r := innovations flt p.1 ys in Ok (c.2 :: r)
  end.
Proof. by []. Qed.
Lemma pem_step flt log s L y ys : pem_merit flt log s L (y :: ys) =
  let* c := correct flt s y in
  let* L1 := update_likelihood log L c.2 in
  match ys with
  | [::] => Ok L1
  | _ => let* p := predict flt c.1 in pem_merit flt log p.1 L1 ys
  end.
Proof. by []. Qed.

(** The normal density with mean zero and covariance [P]. *)
Definition normal m (P : 'M[F]_m) (e : 'rV[F]_m) : F :=
  exp (- (2%:R^-1 * (e *m invmx P *m e^T) 0 0)) / Num.sqrt ((2%:R * PI) ^+ m * \det P).

Definition log_density (c : option (corr_data F nx ny)) : F :=
  match c with
  | None => 0
  | Some d => ln (normal (cd_Py d) (cd_e d)) + #|cd_A d|%:R / 2%:R * ln (2%:R * PI)
  end.

Lemma det_chol n (Q S : 'M[F]_n) : upp S -> posdiag S -> S^T *m S = Q ->
  \det Q = (\prod_i S i i) ^+ 2.
Proof.
move=> US PS <-; rewrite det_mulmx det_tr.
have -> : \det S = \prod_i S i i.
  rewrite -det_tr det_trig; last by apply/is_trig_mxP => i j lij; rewrite mxE US.
  by apply: eq_bigr => i _; rewrite mxE.
by rewrite expr2.
Qed.

Lemma pi_gt0 : (0 : F) < 2%:R * PI.
Proof. by apply: mulr_gt0; [rewrite ltr0Sn|apply/RltP; exact: PI_RGT_0]. Qed.

Lemma ln_normal n (Q S : 'M[F]_n) e : Q^T = Q -> chol Q = Ok S ->
  ln (normal Q e) = - (2%:R^-1 * (e *m invmx Q *m e^T) 0 0) - n%:R / 2%:R * ln (2%:R * PI) - \sum_i ln (S i i).
Proof.
move=> SQ E; have [US PS ES] := (chol_spec S SQ).1 E.
have [LP P0] := ln_prod PS; have D := det_chol US PS ES.
have D0 : 0 < \det Q by rewrite D exprn_gt0.
have P2 : 0 < (2%:R * PI) ^+ n by rewrite exprn_gt0 // pi_gt0.
rewrite /normal ln_div; last by rewrite sqrtr_gt0 mulr_gt0.
  rewrite ln_exp -addrA; congr (_ + _).
  rewrite ln_sqrt ?mulr_gt0 // (ln_mul P2 D0) (ln_expn _ pi_gt0) D (ln_expn _ P0) LP.
  move: (ln (2%:R * PI)) => lp; rewrite mulrDr opprD !mulrA mulVf ?pnatr_eq0 // mul1r.
  by rewrite [2%:R^-1 * n%:R]mulrC.
by apply/RltP; exact: exp_pos.
Qed.

(** Each update adds the log-density of the innovation. *)
Lemma update_ln md kappa rt s y s' c L : (md_R md)^T = md_R md -> ukf_correct md kappa rt s y = Ok (s', c) ->
  update_likelihood ln L c = Ok (L + log_density c).
Proof.
move=> SR; rewrite /ukf_correct; case: ifP => [_|nA]; first by case=> _ <-; rewrite /= addr0.
case TE: transform => [u|//] /=.
have SP : (u_Po u + pick2 (active y) (md_R md))^T = u_Po u + pick2 (active y) (md_R md).
  rewrite linearD /=; congr (_ + _).
    by rewrite (u_Po_sym TE).
  by apply/matrixP => i j; rewrite !mxE -{1}SR mxE.
case CE: chol => [C|//] /=; case IE: inv => [CI|//] /= [_ <-] /=; congr Ok.
rewrite (ln_normal _ SP CE).
have [US PS ES] := (chol_spec C SP).1 CE; have [UC ->] := inv_ok IE.
set P := u_Po u + _ in SP CE ES *.
have -> : invmx C *m (invmx C)^T = invmx P.
  rewrite -ES; have UCt : C^T \in unitmx by rewrite unitmx_tr.
  have UP : C^T *m C \in unitmx by rewrite unitmx_mul UC UCt.
  rewrite trmx_inv; apply: (can_inj (mulmxK UP)); rewrite mulVmx //.
  by rewrite -mulmxA (mulmxA (invmx C^T)) mulVmx // mul1mx mulVmx.
set a := (_ *m _) 0 0; set b := _ * ln (_ * _); set d := \sum_i _.
by rewrite -!addrA; congr (_ + (_ + _)); rewrite addrCA addNr addr0.
Qed.

Local Arguments pem_merit : simpl never.
Local Arguments innovations : simpl never.
Local Arguments ukf : simpl never.
Local Arguments predict : simpl never.
Local Arguments correct : simpl never.

(** [pem_merit] of the unscented filter adds to the initial [L] the
    log-densities of the innovations, without the constants
    [-(m/2) log(2 pi)]; it fails exactly when the filter does. *)
Theorem C42_merit md kp kc rp rc s L ys : (md_R md)^T = md_R md ->
  pem_merit (ukf md kp kc rp rc) ln s L ys
  = let* l := innovations (ukf md kp kc rp rc) s ys in Ok (L + \sum_(c <- l) log_density c).
Proof.
move=> SR; elim: ys s L => [|y ys IH] s L; first by rewrite /innovations /= big_nil addr0.
rewrite pem_step innovations_step.
case E: (correct _ _ _) => [[s1 c]|//] /=; rewrite (update_ln L SR E).
case: ys IH => [|z ys] IH; first by rewrite [bind _ _]/= [in RHS]/= big_seq1.
case: (predict (ukf md kp kc rp rc) s1) => [p|//] /=; rewrite IH.
case: (innovations _ _ (z :: ys)) => [l|//] /=.
by rewrite big_cons addrA.
Qed.

(** With definite noise covariances the run, and so the merit, has a value. *)
Lemma innovations_ok md kp kc rp rc s ys :
  0 <= kp -> 0 < nx%:R + kp -> is_root rp -> 0 <= kc -> 0 < nx%:R + kc -> is_root rc ->
  pd (fs_P s) -> (forall k x, pd (md_Q md k x)) -> pd (md_R md) ->
  exists2 l, innovations (ukf md kp kc rp rc) s ys = Ok l & size l = size ys.
Proof.
move=> kp0 mp rrp kc0 mc rrc + PQ PR; elim: ys s => [|y ys IH] s PP; first by exists [::].
rewrite innovations_step.
have [s1 [c [E _ P1 _]]] := ukf_correct_pd y kc0 mc rrc PP PR; rewrite [correct _ _ _]E /=.
case: ys IH => [|z ys] IH; first by exists [:: c].
have [s2 [C [E2 _ P2]]] := ukf_predict_pd kp0 mp rrp P1 (PQ (fs_k s1) (fs_x s1)); rewrite [predict _ _]E2 /=.
by have [l -> sl] := IH s2 P2; exists (c :: l); rewrite //= sl.
Qed.
Theorem C42_total md kp kc rp rc s L ys :
  0 <= kp -> 0 < nx%:R + kp -> is_root rp -> 0 <= kc -> 0 < nx%:R + kc -> is_root rc ->
  pd (fs_P s) -> (forall k x, pd (md_Q md k x)) -> pd (md_R md) ->
  exists2 l, size l = size ys & pem_merit (ukf md kp kc rp rc) ln s L ys = Ok (L + \sum_(c <- l) log_density c).
Proof.
move=> kp0 mp rrp kc0 mc rrc PP PQ PR.
have [l E sl] := innovations_ok ys kp0 mp rrp kc0 mc rrc PP PQ PR.
by exists l => //; rewrite C42_merit ?E //; exact: pd_sym PR.
Qed.

(** Fully masked samples add nothing. *)
Theorem C42_masked md kp kc rp rc s s' c y : correct (ukf md kp kc rp rc) s y = Ok (s', c) ->
  active y = set0 -> c = None /\ log_density c = 0.
Proof. by move=> + A0; rewrite /correct /ukf /ukf_correct A0 eqxx => -[_ <-]. Qed.
End Merit.

(** * C45 *)

Section Ekf.
Variable F : rcfType.
Variables nx ny : nat.
Implicit Types (md : model F nx ny) (s : fstate F nx) (y : meas F ny).

Lemma ekf_unmasked md s y s' c : ekf_correct md s y = Ok (s', c) -> active y != set0 ->
  exists2 d, c = Some d & cd_PyC d = None.
Proof. by rewrite /ekf_correct => + /negbTE nA; rewrite nA; case: inv => //= PyI [_ <-]; eexists. Qed.

(** Refuted: the extended filter's merit is an error as soon as any output of
    any sample is unmasked, whatever the model. *)
Theorem C45_merit_fails md log s L ys : has (fun y => active y != set0) ys ->
  forall L', pem_merit (ekf md) log s L ys <> Ok L'.
Proof.
elim: ys s L => [|y ys IH] s L //= H L'; rewrite -/(ekf md).
case E: ekf_correct => [[s1 c]|//] /=.
case nA: (active y != set0) H => /= H.
  by have [d -> /= ->] := ekf_unmasked E nA.
case: update_likelihood => [L1|//] /=; case: ys IH H => [|z ys] // IH H.
exact: IH.
Qed.

(** Unless an inverse failed before, it is the missing attribute [PyC]. *)
Theorem C45_merit_attribute md log s L y ys : active y != set0 -> forall s' c,
  ekf_correct md s y = Ok (s', c) -> pem_merit (ekf md) log s L (y :: ys) = Err AttributeError.
Proof. by move=> nA s' c E; rewrite /= E /=; have [d -> /= ->] := ekf_unmasked E nA. Qed.

(** With everything masked the merit is the initial value. *)
Theorem C45_merit_masked md log s L ys : all (fun y => active y == set0) ys ->
  pem_merit (ekf md) log s L ys = Ok L.
Proof.
elim: ys s L => [|y ys IH] s L //= /andP [/eqP A0 H]; rewrite ekf_correct0 //=.
by case: ys IH H => [|z ys] // IH H; exact: IH.
Qed.

(** The gradient returns a value only for no sample or one fully masked
    sample. *)
Theorem C45_gradient md log T (dL : T) s L ys v : ekf_pem_gradient md log dL s L ys = Ok v <->
  v = dL /\ (ys = [::] \/ exists2 y, ys = [:: y] & active y = set0).
Proof.
split; last by case=> -> [->|[y -> A0]] //=; rewrite ekf_correct0.
case: ys => [|y ys] /=; first by case=> <-; split=> //; left.
case E: ekf_correct => [[s1 c]|//] /=.
have [A0|nA] := eqVneq (active y) set0; last by have [d -> /= ->] := ekf_unmasked E nA.
move: E; rewrite ekf_correct0 // => -[_ <-] /=.
by case: ys => [|z ys] // [<-]; split=> //; right; exists y.
Qed.
End Ekf.

(** A concrete case: one state, two outputs, one of them masked in one of the
    two samples. *)
Example C42_C45_nonvacuous :
  let ys := [:: ex_y R_rcfType; Meas 0 set0] in
  let flt := ukf (ex_md R_rcfType) 0 0 (@chol _ 1) (@chol _ 1) in
  [/\ (md_R (ex_md R_rcfType))^T = md_R (ex_md R_rcfType),
     exists2 L, pem_merit flt ln (ex_s R_rcfType) 0 ys = Ok L & exists2 l, innovations flt (ex_s R_rcfType) ys = Ok l & size l = 2%N,
     has (fun y : meas R_rcfType 2 => active y != set0) ys &
     exists s' c, ekf_correct (ex_md R_rcfType) (ex_s _) (ex_y _) = Ok (s', c)].
Proof.
have nA : active (ex_y R_rcfType) != set0.
  by apply/eqP => /setP /(_ 0); rewrite !inE.
have m0 : (0 : R_rcfType) < 1%:R + 0 by rewrite addr0 ltr01.
have SR : (md_R (ex_md R_rcfType))^T = md_R (ex_md R_rcfType) by rewrite /= trmx1.
have [l El sl] : exists2 l, innovations (ukf (ex_md R_rcfType) 0 0 (@chol _ 1) (@chol _ 1)) (ex_s R_rcfType) [:: ex_y R_rcfType; Meas 0 set0] = Ok l & size l = 2%N.
  apply: innovations_ok; rewrite ?lexx //; try exact: chol_is_root; try exact: pd1.
  by move=> k x; exact: pd1.
split=> //.
- by exists (0 + \sum_(c <- l) log_density c); [rewrite C42_merit // El|exists l].
- by rewrite /= nA.
- have [s' [c [E _ _ _ _]]] := ekf_correct_pd (ex_y R_rcfType) (psd1 _ 1 : psd (fs_P (ex_s R_rcfType))) (pd1 _ 2 : pd (md_R (ex_md R_rcfType))).
  by exists s', c.
Qed.
