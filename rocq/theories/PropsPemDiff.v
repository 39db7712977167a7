(** C43 and C44: [pem_gradient] and [pem_hessian] are the first and second
    partial derivatives of [pem_merit]. *)
From Coq Require Import String Reals Lra.
From Coquelicot Require Import Coquelicot.
From Verif Require Import Py.
From mathcomp Require Import all_ssreflect all_algebra.
From Verif Require Import RealField McRing MxCalc KalModel PsdLemmas CholLemmas UtLemmas KalDiffModel CholDiffLemmas PropsCholDiff UtDiffLemmas FiltDiffLemmas KalLemmas PropsPem.
Set Implicit Arguments.
Unset Strict Implicit.
Unset Printing Implicit Defensive.
Import Order.TTheory GRing.Theory Num.Theory.
Local Open Scope ring_scope.

Local Arguments pem_merit : simpl never.
Local Arguments predict : simpl never.
Local Arguments correct : simpl never.

(** * When the loops have a value *)

Section Total.
Variable F : rcfType.
Variables nx ny nq : nat.
Variables (dm : dmodel F nx ny nq) (log : F -> F) (kp kc : F).
Notation md := (dm_md dm).
Notation flt := (ukf md kp kc (@chol F nx) (@chol F nx)).
Hypothesis SQ : forall k x, (md_Q md k x)^T = md_Q md k x.
Hypothesis SR : (md_R md)^T = md_R md.

Lemma chol_diff_total n (Q S : 'M[F]_n) (dQ : 'I_nq -> 'M[F]_n) : Q^T = Q -> chol Q = Ok S -> exists c, chol_diff S dQ = Ok c.
Proof. by move=> SQ' /(chol_spec _ SQ') [U P _]; rewrite (chol_diff_ok dQ U P); eexists. Qed.

Lemma transform_diff_total ni no kappa i (Pi : 'M[F]_ni) (f : 'rV[F]_ni -> 'rV[F]_no) (u : ut_data ni kappa no) df_dq df_di (di : 'I_nq -> _) dPi :
  Pi^T = Pi -> transform kappa (@chol F ni) i Pi f = Ok u -> exists v, transform_diff u df_dq df_di di dPi = Ok v.
Proof.
move=> SP Tu; have S' : ((ni%:R + kappa) *: Pi)^T = (ni%:R + kappa) *: Pi by rewrite linearZ /= SP.
have [c Ec] := chol_diff_total (fun a => (ni%:R + kappa) *: dPi a) S' (u_SE Tu).
by rewrite /transform_diff Ec; eexists.
Qed.

Lemma pick2_sym (A : {set 'I_ny}) (M : 'M[F]_ny) : M^T = M -> (pick2 A M)^T = pick2 A M.
Proof. by move=> S; apply/matrixP => i j; rewrite !mxE -[M in LHS]S mxE. Qed.

Lemma trB m n (M N : 'M[F]_(m, n)) : (M - N)^T = M^T - N^T. Proof. by rewrite linearB. Qed.
Lemma trD m n (M N : 'M[F]_(m, n)) : (M + N)^T = M^T + N^T. Proof. by rewrite linearD. Qed.

(** A correction of the plain filter, with the data the derivatives use. *)
Lemma ukf_correctE (A : {set 'I_ny}) (y : meas F ny) s : active y = A -> A != set0 ->
  ukf_correct md kc (@chol F nx) s y
  = let* c := correct0 dm kc s A (y_data y) in
    Ok (corr_state s c, Some (@CD F nx ny A (c_e c) (c_Pxh c) (c_Py c) (c_PyI c) (c_K c) (Some (c_PyC c)))).
Proof.
move=> <- nA; rewrite /ukf_correct (negbTE nA) /correct0.
case: (transform _ _ _ _ _) => [u|//]; rewrite /bind.
by case: (chol _) => [C|//]; case: (inv C).
Qed.

Lemma grad_correct_total g y s c L : (fs_P (g_s g))^T = fs_P (g_s g) ->
  ukf_correct md kc (@chol F nx) (g_s g) y = Ok (s, c) -> update_likelihood log (g_L g) c = Ok L ->
  exists g1, [/\ grad_correct dm log kc g y = Ok g1, g_s g1 = s, g_L g1 = L & (fs_P s)^T = fs_P s].
Proof.
move=> SP; rewrite /grad_correct; case: (boolP (active y == set0)) => [A0|nA].
  by rewrite /ukf_correct A0 => -[<- <-] [<-]; exists g.
rewrite (ukf_correctE _ (erefl _)) //; case E0: correct0 => [c0|//] /= [<- <-] [<-].
move: (E0); rewrite /correct0; case Tu: (transform _ _ _ _ _) => [u|//]; rewrite /bind.
case EC: (chol _) => [C|//]; case EI: (inv C) => [CI|//] [c0E].
have SPy : (c_Py c0)^T = c_Py c0 by rewrite -c0E trD (u_Po_sym Tu) pick2_sym.
have Tu' : transform kc (@chol F nx) (fs_x (g_s g)) (fs_P (g_s g)) (fun x => pick (active y) (md_h md (fs_k (g_s g)) x)) = Ok (c_u c0).
  by rewrite Tu -c0E.
have [v Ev] := transform_diff_total (fun x a => pick (active y) (dm_dh_dq dm (fs_k (g_s g)) x a)) (fun x => pick (active y) (md_dh_dx md (fs_k (g_s g)) x)) (ds_x (g_d g)) (ds_P (g_d g)) SP Tu'.
have [c1 Ec1] : exists c1, correct1 dm (g_s g) c0 (g_d g) = Ok c1 by rewrite /correct1 Ev; eexists.
have EC' : chol (c_Py c0) = Ok (c_PyC c0) by rewrite -c0E.
have [ch Ech] := chol_diff_total (c_dPy c1) SPy EC'.
rewrite Ec1 /lik1 Ech; eexists; split=> //=.
by rewrite trB SP !trmx_mul trmxK SPy mulmxA.
Qed.

Lemma grad_predict_total g s P' : (fs_P (g_s g))^T = fs_P (g_s g) ->
  ukf_predict md kp (@chol F nx) (g_s g) = Ok (s, P') ->
  exists g1, [/\ grad_predict dm kp g = Ok g1, g_s g1 = s, g_L g1 = g_L g & (fs_P s)^T = fs_P s].
Proof.
move=> SP; rewrite /grad_predict /ukf_predict /pred_ut.
case Tu: (transform _ _ _ _ _) => [u|//] /= [<- _].
have [v Ev] := transform_diff_total (dm_df_dq dm (fs_k (g_s g))) (md_df_dx md (fs_k (g_s g))) (ds_x (g_d g)) (ds_P (g_d g)) SP Tu.
by rewrite /pred_ut_diff Ev; eexists; split=> //=; rewrite trD (u_Po_sym Tu) SQ.
Qed.

Lemma merit_step s L y ys : pem_merit flt log s L (y :: ys)
  = let* c := correct flt s y in let* L1 := update_likelihood log L c.2 in
    match ys with [::] => Ok L1 | _ => let* p := predict flt c.1 in pem_merit flt log p.1 L1 ys end.
Proof. by []. Qed.

(** The gradient has a value whenever the merit has. *)
Lemma grad_total g ys m : (fs_P (g_s g))^T = fs_P (g_s g) ->
  pem_merit flt log (g_s g) (g_L g) ys = Ok m ->
  exists2 g', grad_loop dm log kp kc g ys = Ok g' & g_L g' = m.
Proof.
elim: ys g => [|y ys IH] g SP; first by move=> [<-]; exists g.
rewrite merit_step; case Ec: (correct flt _ _) => [[s c]|//]; rewrite [bind _ _]/=.
case EL: update_likelihood => [L|//]; rewrite [bind _ _]/=.
have [g1 [E1 s1 L1 S1]] := grad_correct_total SP Ec EL.
case: ys IH => [|z ys] IH; first by move=> [<-]; exists g1; rewrite // /= E1.
case Ep: (predict flt s) => [[s' P']|//]; rewrite [bind _ _]/=.
rewrite -s1 in S1 Ep; have [g2 [E2 s2 L2 S2]] := grad_predict_total S1 Ep.
rewrite -s2 -L1 -L2 => Em; rewrite -s2 in S2.
have [g' Eg Lg] := IH _ S2 Em; exists g' => //.
by rewrite /= E1 /= E2.
Qed.

Lemma grad_merit g ys g' : grad_loop dm log kp kc g ys = Ok g' ->
  pem_merit flt log (g_s g) (g_L g) ys = Ok (g_L g').
Proof.
have cs h y h1 : grad_correct dm log kc h y = Ok h1 ->
    (let* c := correct flt (g_s h) y in let* L1 := update_likelihood log (g_L h) c.2 in Ok (c.1, L1)) = Ok (g_s h1, g_L h1).
  rewrite /grad_correct; case: (boolP (active y == set0)) => [A0|nA].
    by move=> [<-]; rewrite /correct /= /ukf_correct A0.
  rewrite /correct /= (ukf_correctE _ (erefl _)) //; case: correct0 => [c0|//]; rewrite /bind.
  by case: correct1 => [c1|//]; case: lik1 => [l|//] [<-].
elim: ys g => [|y ys IH] g; first by move=> [<-].
rewrite /=; case E1: grad_correct => [g1|//]; rewrite {1}/bind.
move: (cs _ _ _ E1); rewrite merit_step; case: (correct _ _ _) => [c|//]; rewrite /bind.
case: update_likelihood => [L1|//] [-> ->]; case: ys IH => [|z ys] IH; first by move=> [<-].
rewrite /grad_predict /predict /= /ukf_predict -/(pred_ut dm kp (g_s g1)).
case: pred_ut => [u|//]; rewrite /bind; case: pred_ut_diff => [v|//] Eg.
exact: IH Eg.
Qed.

Lemma grad_correct_run g y g1 : grad_correct dm log kc g y = Ok g1 -> exists c, correct flt (g_s g) y = Ok (g_s g1, c).
Proof.
rewrite /grad_correct; case: (boolP (active y == set0)) => [A0|nA].
  by move=> [<-]; exists None; rewrite /correct /= /ukf_correct A0.
rewrite /correct /= (ukf_correctE _ (erefl _)) //; case: correct0 => [c0|//]; rewrite /bind.
by case: correct1 => [c1|//]; case: lik1 => [l|//] [<-]; eexists.
Qed.
Lemma grad_predict_run g g1 : grad_predict dm kp g = Ok g1 -> exists P, predict flt (g_s g) = Ok (g_s g1, P).
Proof.
rewrite /grad_predict /predict /= /ukf_predict -/(pred_ut dm kp (g_s g)).
by case: pred_ut => [u|//]; rewrite /bind; case: pred_ut_diff => [v|//] [<-]; eexists.
Qed.

(** The Hessian loop carries the gradient loop and has a value with it. *)
Lemma hess_correctE h y : (let* h1 := hess_correct dm log kc h y in Ok (h_g h1)) = grad_correct dm log kc (h_g h) y.
Proof.
rewrite /hess_correct /grad_correct; case: ifP => // _; rewrite /bind.
case: correct0 => [c|//]; case: correct1 => [c1|//]; by case: lik1.
Qed.
Lemma hess_predictE h : (let* h1 := hess_predict dm kp h in Ok (h_g h1)) = grad_predict dm kp (h_g h).
Proof.
rewrite /hess_predict /grad_predict /bind.
by case: pred_ut => [u|//]; case: pred_ut_diff.
Qed.
Lemma hess_loopE h ys : (let* h1 := hess_loop dm log kp kc h ys in Ok (h_g h1)) = grad_loop dm log kp kc (h_g h) ys.
Proof.
elim: ys h => [|y ys IH] h //; rewrite /= -hess_correctE /bind.
case: hess_correct => [h1|//]; case: ys IH => [|z ys] IH //.
rewrite -hess_predictE /bind; case: hess_predict => [h2|//].
exact: IH.
Qed.
End Total.

(** * Along a path of parameters *)

(** The sigma points of a state: the points at which the transform evaluates
    its function. *)
Definition sigma_point nx (kappa : RF) (s : fstate RF nx) (z : 'rV[RF]_nx) : Prop :=
  exists2 S, chol ((nx%:R + kappa) *: fs_P s) = Ok S &
  exists j, z = row j (deviations kappa S + every _ (fs_x s)).

(** Every point at which the run evaluates the functions of the model is in
    the region of that function. *)
Fixpoint stays nx ny (md : model RF nx ny) (kp kc : RF) (X : regions nx) (s : fstate RF nx) (ys : seq (meas RF ny)) : Prop :=
  match ys with
  | [::] => True
  | y :: ys' =>
      (active y != set0 -> forall z, sigma_point kc s z -> in_h X (fs_k s) z) /\
      forall s1 c, correct (ukf md kp kc (@chol RF nx) (@chol RF nx)) s y = Ok (s1, c) -> ys' <> [::] ->
        [/\ forall z, sigma_point kp s1 z -> in_f X (fs_k s1) z, in_Q X (fs_k s1) (fs_x s1) &
          forall s2 P, predict (ukf md kp kc (@chol RF nx) (@chol RF nx)) s1 = Ok (s2, P) -> stays md kp kc X s2 ys']
  end.

Lemma sigma_of nx no kappa (s : fstate RF nx) (f : 'rV[RF]_nx -> 'rV[RF]_no) u j :
  transform kappa (@chol RF nx) (fs_x s) (fs_P s) f = Ok u -> sigma_point kappa s (row j (u_isigma u)).
Proof. by rewrite transformE; case E: chol => [S|//] /= [<-]; exists S => //; exists j. Qed.
Lemma sigma_inv nx no kappa (s : fstate RF nx) (f : 'rV[RF]_nx -> 'rV[RF]_no) u z :
  transform kappa (@chol RF nx) (fs_x s) (fs_P s) f = Ok u -> sigma_point kappa s z -> exists j, z = row j (u_isigma u).
Proof. by move=> + [S E] [j ->]; rewrite transformE E /= => -[<-]; exists j. Qed.

Section Path.
Variable t : R.
Variables nx ny nq : nat.
Variable D : R -> dmodel RF nx ny nq.
Variables (a : 'I_nq) (kp kc : RF).
Variable X : R -> regions nx.
Hypothesis PD : path_diff t D a (X t).
Notation md r := (dm_md (D r)).
Notation flt r := (ukf (md r) kp kc (@chol RF nx) (@chol RF nx)).

(** [x], [P], [L] along the path, with derivatives [d], [dL] in direction [a]. *)
Record gtan (k : nat) (x : R -> 'rV[RF]_nx) (P : R -> 'M[RF]_nx) (L : R -> RF) (g : gstate RF nx nq) : Prop := GTan {
  gt_s : g_s g = FS k (x t) (P t); gt_L : g_L g = L t;
  gt_st : stan t a x P (g_d g); gt_dL : sderiv L t (g_dL g a) }.

Lemma correct0_sigma (dm : dmodel RF nx ny nq) s A y c j : correct0 dm kc s A y = Ok c -> sigma_point kc s (row j (u_isigma (c_u c))).
Proof.
rewrite /correct0; case E: (transform _ _ _ _ _) => [u|//]; rewrite /bind.
by case: (chol _) => [C|//]; case: (inv C) => [CI|//] [<-]; exact: sigma_of E.
Qed.
Lemma correct0_inv (dm : dmodel RF nx ny nq) s A y c z : correct0 dm kc s A y = Ok c -> sigma_point kc s z -> exists j, z = row j (u_isigma (c_u c)).
Proof.
rewrite /correct0; case E: (transform _ _ _ _ _) => [u|//]; rewrite /bind.
by case: (chol _) => [C|//]; case: (inv C) => [CI|//] [<-]; exact: sigma_inv E.
Qed.
Definition sees_h (y : meas RF ny) (k : nat) (s : fstate RF nx) (r : R) : Prop := active y != set0 -> forall z, sigma_point kc s z -> in_h (X r) k z.
Definition sees_f (k : nat) (s : fstate RF nx) (r : R) : Prop := (forall z, sigma_point kp s z -> in_f (X r) k z) /\ in_Q (X r) k (fs_x s).

Lemma correct_step k x P L g y g1 : gtan k x P L g -> grad_correct (D t) ln kc g y = Ok g1 -> sees_h y k (g_s g) t ->
  exists x' P' L', gtan k x' P' L' g1 /\
    near t (fun r => (let* c := correct (flt r) (FS k (x r) (P r)) y in
                     let* L1 := update_likelihood ln (L r) c.2 in Ok (c.1, L1)) = Ok (FS k (x' r) (P' r), L' r)).
Proof.
move=> [Es EL St HL]; rewrite /grad_correct /sees_h; case: (boolP (active y == set0)) => [A0|nA].
  move=> [<-] _; exists x, P, L; split=> //; apply: near_all => r.
  by rewrite /correct /= /ukf_correct A0.
rewrite Es; case E0: correct0 => [c0|//]; rewrite {1}/bind.
case E1: correct1 => [c1|//]; rewrite {1}/bind.
case E2: lik1 => [l|//] [<-] /(_ isT) Xh.
have [c [nc ct CT St']] := correct_tangent PD St E0 E1 (fun j => Xh _ (correct0_sigma j E0)).
exists (fun r => fs_x (corr_state (FS k (x r) (P r)) (c r))), (fun r => fs_P (corr_state (FS k (x r) (P r)) (c r))), (fun r => lik0 ln (c r) (L r)).
rewrite -ct in E2 St' *; split.
  by have HL' := lik_tangent CT HL E2; split=> //=; rewrite EL.
apply: near_mp nc _ => r Er.
by rewrite /correct /= (ukf_correctE (D r) _ _ (erefl (active y))) // Er.
Qed.

Lemma predict_step k x P L g g1 : gtan k x P L g -> grad_predict (D t) kp g = Ok g1 -> sees_f k (g_s g) t ->
  exists x' P', gtan k.+1 x' P' L g1 /\
    near t (fun r => (let* p := predict (flt r) (FS k (x r) (P r)) in Ok p.1) = Ok (FS k.+1 (x' r) (P' r))).
Proof.
move=> [Es EL St HL]; rewrite /grad_predict Es.
case E0: pred_ut => [u0|//]; rewrite {1}/bind.
case E1: pred_ut_diff => [v0|//] [<-] [Xf XQ].
have [u [nu ut nU T St']] := pred_tangent PD St E0 E1 (fun j => Xf _ (sigma_of j E0)) XQ.
exists (fun r => u_o (u r)), (fun r => u_Po (u r) + md_Q (md r) k (x r)).
split; first by split=> //=; rewrite /pred_state /= ut.
by apply: near_mp nu _ => r; rewrite /pred_ut /predict /= /ukf_predict /= => ->.
Qed.

Lemma bind_bind A B C (m : res A) (f : A -> res B) (g : B -> res C) :
  (let* y := (let* x := m in f x) in g y) = (let* x := m in let* y := f x in g y).
Proof. by case: m. Qed.

Lemma stays_step s y z ys s1 c : stays (md t) kp kc (X t) s [:: y, z & ys] -> correct (flt t) s y = Ok (s1, c) ->
  sees_f (fs_k s1) s1 t /\ forall s2 P, predict (flt t) s1 = Ok (s2, P) -> stays (md t) kp kc (X t) s2 (z :: ys).
Proof. by move=> [_ H] E; have [//|Xf XQ St] := H _ _ E _. Qed.
Lemma correct_at s y L s1 L1 : (let* c := correct (flt t) s y in let* L1 := update_likelihood ln L c.2 in Ok (c.1, L1)) = Ok (s1, L1) ->
  exists c, correct (flt t) s y = Ok (s1, c).
Proof.
case: (correct _ _ _) => [[s' c]|//]; rewrite /bind; case: (update_likelihood _ _ _) => [l|//] [<- _].
by exists c.
Qed.
Lemma predict_at s s2 : (let* p := predict (flt t) s in Ok p.1) = Ok s2 -> exists P, predict (flt t) s = Ok (s2, P).
Proof. by case: (predict _ _) => [[s' P]|//] /= [<-]; exists P. Qed.

Lemma gradient_path k x P L g ys g' : gtan k x P L g -> grad_loop (D t) ln kp kc g ys = Ok g' -> stays (md t) kp kc (X t) (g_s g) ys ->
  exists M, [/\ near t (fun r => pem_merit (flt r) ln (FS k (x r) (P r)) (L r) ys = Ok (M r)),
    M t = g_L g' & sderiv M t (g_dL g' a)].
Proof.
elim: ys k x P L g => [|y ys IH] k x P L g T.
  by move=> [<-] _; exists L; split; [apply: near_all | rewrite (gt_L T) | exact: gt_dL T].
rewrite [grad_loop _ _ _ _ _ _]/=; case E1: grad_correct => [g1|//]; rewrite {1}/bind.
have Es := gt_s T.
move=> Eg S; have Xh : sees_h y k (g_s g) t by case: S; rewrite Es.
have [x1 [P1 [L1 [T1 n1]]]] := correct_step T E1 Xh.
have n1' : near t (fun r => pem_merit (flt r) ln (FS k (x r) (P r)) (L r) (y :: ys)
   = match ys with [::] => Ok (L1 r) | _ => let* p := predict (flt r) (FS k (x1 r) (P1 r)) in pem_merit (flt r) ln p.1 (L1 r) ys end).
  apply: near_mp n1 _ => r; rewrite pem_step.
  case: (correct _ _ _) => [c|//]; rewrite /bind; case: update_likelihood => [l|//] [-> ->].
  by [].
case: ys IH Eg S n1' => [|z ys] IH.
  by move=> [<-] _ n1'; exists L1; split; [exact: n1' | rewrite (gt_L T1) | exact: gt_dL T1].
case E2: grad_predict => [g2|//]; rewrite {1}/bind => Eg S n1'.
have [c Ec] := correct_at (near_at n1); rewrite -Es in Ec.
have [Xf Sn] := stays_step S Ec; rewrite -(gt_s T1) in Xf Sn.
have E' : fs_k (g_s g1) = k by rewrite (gt_s T1).
rewrite E' in Xf.
have [x2 [P2 [T2 n2]]] := predict_step T1 E2 Xf.
have [P' Ep] := predict_at (near_at n2); rewrite -(gt_s T1) -(gt_s T2) in Ep.
have [M [nM Mt HM]] := IH _ _ _ _ _ T2 Eg (Sn _ _ Ep).
exists M; split=> //; apply: near_mp (near_and n1' (near_and n2 nM)) _ => r [-> [+ <-]].
by case: (predict _ _) => [p|//] [E]; rewrite /= E.
Qed.

(** The run stays in the regions nearby when these are open. *)
Definition ropen (I : regions nx -> nat -> 'rV[RF]_nx -> Prop) : Prop :=
  forall k z z', mderiv z t z' -> I (X t) k (z t) -> near t (fun r => I (X r) k (z r)).
Hypotheses (Of : ropen (@in_f nx)) (OQ : ropen (@in_Q nx)) (Oh : ropen (@in_h nx)).

Lemma sees_h_near k x P L g y g1 : gtan k x P L g -> grad_correct (D t) ln kc g y = Ok g1 -> sees_h y k (g_s g) t ->
  near t (fun r => sees_h y k (FS k (x r) (P r)) r).
Proof.
move=> [Es EL St HL]; rewrite /grad_correct /sees_h; case: (boolP (active y == set0)) => [A0 _ _|nA].
  exact: near_all.
rewrite Es; case E0: correct0 => [c0|//]; rewrite {1}/bind.
case E1: correct1 => [c1|//]; rewrite {1}/bind => _ /(_ isT) Xh.
have Xj j := Xh _ (correct0_sigma j E0).
have [c [nc ct CT St']] := correct_tangent PD St E0 E1 Xj.
have n : near t (fun r => forall j, in_h (X r) k (row j (u_isigma (c_u (c r))))).
  apply: near_fin => j; apply: Oh (mderiv_row j (tan_isigma (ct_u CT))) _.
  by rewrite ct; exact: Xj.
apply: near_mp (near_and nc n) _ => r [Er Hr] _ z /(correct0_inv Er) [j ->].
exact: Hr.
Qed.
Lemma sees_f_near k x P L g g1 : gtan k x P L g -> grad_predict (D t) kp g = Ok g1 -> sees_f k (g_s g) t ->
  near t (fun r => sees_f k (FS k (x r) (P r)) r).
Proof.
move=> [Es EL St HL]; rewrite /grad_predict Es.
case E0: pred_ut => [u0|//]; rewrite {1}/bind.
case E1: pred_ut_diff => [v0|//] _ [Xf XQ].
have Xj j := Xf _ (sigma_of j E0).
have [u [nu ut nU T St']] := pred_tangent PD St E0 E1 Xj XQ.
have n : near t (fun r => forall j, in_f (X r) k (row j (u_isigma (u r)))).
  by apply: near_fin => j; apply: Of (mderiv_row j (tan_isigma T)) _; rewrite ut; exact: Xj.
have nQ : near t (fun r => in_Q (X r) k (x r)) by apply: OQ (stan_x St) XQ.
apply: near_mp (near_and nu (near_and n nQ)) _ => r [Er [Hr HQ]]; split=> // z /(sigma_inv Er) [j ->].
exact: Hr.
Qed.
Lemma stays_near k x P L g ys g' : gtan k x P L g -> grad_loop (D t) ln kp kc g ys = Ok g' -> stays (md t) kp kc (X t) (g_s g) ys ->
  near t (fun r => stays (md r) kp kc (X r) (FS k (x r) (P r)) ys).
Proof.
elim: ys k x P L g => [|y ys IH] k x P L g T; first by move=> _ _; apply: near_all.
rewrite [grad_loop _ _ _ _ _ _]/=; case E1: grad_correct => [g1|//]; rewrite {1}/bind.
have Es := gt_s T.
move=> Eg S; have Xh : sees_h y k (g_s g) t by case: S; rewrite Es.
have [x1 [P1 [L1 [T1 n1]]]] := correct_step T E1 Xh.
have nh := sees_h_near T E1 Xh.
case: ys IH Eg S => [|z ys] IH.
  by move=> _ _; apply: near_mp nh _ => r Hr; split.
case E2: grad_predict => [g2|//]; rewrite {1}/bind => Eg S.
have [c Ec] := correct_at (near_at n1); rewrite -Es in Ec.
have [Xf Sn] := stays_step S Ec; rewrite -(gt_s T1) in Xf Sn.
have E' : fs_k (g_s g1) = k by rewrite (gt_s T1).
rewrite E' in Xf.
have [x2 [P2 [T2 n2]]] := predict_step T1 E2 Xf.
have [P' Ep] := predict_at (near_at n2); rewrite -(gt_s T1) -(gt_s T2) in Ep.
have nS := IH _ _ _ _ _ T2 Eg (Sn _ _ Ep).
have nf := sees_f_near T1 E2 Xf.
apply: near_mp (near_and nh (near_and n1 (near_and nf (near_and n2 nS)))) _ => r [Hh [H1 [Hf [H2 HS]]]].
split=> // s1 c1 Ec1 _; move: H1; rewrite Ec1 /bind; case: update_likelihood => [l|//] [-> _].
case: Hf => Hf HQ; split=> // s2 P2' Ep2; move: H2; rewrite Ep2 /= => -[->].
exact: HS.
Qed.

(** Second order. *)
Hypothesis PD2 : path_diff2 t D a (X t).

Record htan (k : nat) (x : R -> 'rV[RF]_nx) (P : R -> 'M[RF]_nx) (L : R -> RF) (d : R -> dstate RF nx nq) (dL : R -> 'I_nq -> RF) (h : hstate RF nx nq) : Prop := HTan {
  ht_g : h_g h = GS (FS k (x t) (P t)) (L t) (d t) (dL t);
  ht_st : stan t a x P (d t); ht_L : sderiv L t (dL t a);
  ht_st2 : stan2 t a d (h_d2 h); ht_dL : forall b, sderiv (fun r => dL r b) t (h_d2L h a b) }.

Lemma correct_step2 k x P L d dL h y h1 : htan k x P L d dL h -> hess_correct (D t) ln kc h y = Ok h1 -> sees_h y k (g_s (h_g h)) t ->
  exists x' P' L' d' dL', htan k x' P' L' d' dL' h1 /\
    near t (fun r => grad_correct (D r) ln kc (GS (FS k (x r) (P r)) (L r) (d r) (dL r)) y
                     = Ok (GS (FS k (x' r) (P' r)) (L' r) (d' r) (dL' r))).
Proof.
move=> T; case: (T) => [Eg St HL St2 HdL]; rewrite /hess_correct /grad_correct /sees_h; case: (boolP (active y == set0)) => [A0|nA].
  by move=> [<-] _; exists x, P, L, d, dL; split=> //; apply: near_all.
rewrite Eg /=; case E0: correct0 => [c0|//]; rewrite {1}/bind.
case E1: correct1 => [c10|//]; rewrite {1}/bind.
case E2: lik1 => [l0|//] [<-] /(_ isT) Xh.
have Xj j := Xh _ (correct0_sigma j E0).
have [c [nc ct CT St']] := correct_tangent PD St E0 E1 Xj.
rewrite -ct in E1 E2 St' Xj *.
have [c1 [nc1 c1t CT2 St2']] := correct_tangent2 PD2 St St2 CT E1 Xj.
rewrite -c1t in E1 E2 St' CT CT2 St2' *.
have [l [nl lt Hl]] := lik_tangent2 CT CT2 HdL E2.
exists (fun r => fs_x (corr_state (FS k (x r) (P r)) (c r))), (fun r => fs_P (corr_state (FS k (x r) (P r)) (c r))), (fun r => lik0 ln (c r) (L r)),
  (fun r => corr_dstate (c r) (c1 r) (d r)), (fun r => (l r).2); split.
  by have HL' := lik_tangent CT HL E2; split=> //=; rewrite lt.
apply: near_mp (near_and nc (near_and nc1 nl)) _ => r [-> [E1r E2r]].
by rewrite {1}/bind E1r {1}/bind E2r.
Qed.

Lemma predict_step2 k x P L d dL h h1 : htan k x P L d dL h -> hess_predict (D t) kp h = Ok h1 -> sees_f k (g_s (h_g h)) t ->
  exists x' P' d', htan k.+1 x' P' L d' dL h1 /\
    near t (fun r => grad_predict (D r) kp (GS (FS k (x r) (P r)) (L r) (d r) (dL r))
                     = Ok (GS (FS k.+1 (x' r) (P' r)) (L r) (d' r) (dL r))).
Proof.
move=> [Eg St HL St2 HdL]; rewrite /hess_predict /grad_predict Eg /=.
case E0: pred_ut => [u0|//]; rewrite {1}/bind.
case E1: pred_ut_diff => [v0|//] [<-] [Xf XQ].
have Xj j := Xf _ (sigma_of j E0).
have [u [nu ut nU T St']] := pred_tangent PD St E0 E1 Xj XQ.
rewrite -ut in E1 Xj.
have [v [nv vt St2']] := pred_tangent2 PD2 St St2 nU T E1 Xj XQ.
exists (fun r => u_o (u r)), (fun r => u_Po (u r) + md_Q (md r) k (x r)), (fun r => pred_dstate (D r) (FS k (x r) (P r)) (v r) (d r)); split.
  split=> //=; [by rewrite /pred_state /= ut vt | by rewrite vt | by rewrite -ut].
by apply: near_mp (near_and nu nv) _ => r [-> Ev]; rewrite {1}/bind Ev.
Qed.

Lemma hessian_path k x P L d dL h ys h' : htan k x P L d dL h -> hess_loop (D t) ln kp kc h ys = Ok h' -> stays (md t) kp kc (X t) (g_s (h_g h)) ys ->
  exists G : R -> 'I_nq -> RF, [/\ near t (fun r => pem_gradient (D r) ln kp kc (GS (FS k (x r) (P r)) (L r) (d r) (dL r)) ys = Ok (G r)),
    G t = g_dL (h_g h') & forall b, sderiv (fun r => G r b) t (h_d2L h' a b)].
Proof.
elim: ys k x P L d dL h => [|y ys IH] k x P L d dL h T.
  by move=> [<-] _; exists dL; split; [apply: near_all | rewrite (ht_g T) | exact: ht_dL T].
rewrite [hess_loop _ _ _ _ _ _]/=; case E1: hess_correct => [h1|//]; rewrite {1}/bind => Eg S.
have Xh : sees_h y k (g_s (h_g h)) t by case: S; rewrite (ht_g T).
have [x1 [P1 [L1 [d1 [dL1 [T1 n1]]]]]] := correct_step2 T E1 Xh.
case: ys IH Eg S => [|z ys] IH.
  move=> [<-] _; exists dL1; split; [| by rewrite (ht_g T1) | exact: ht_dL T1].
  by apply: near_mp n1 _ => r Er; rewrite /pem_gradient /= Er.
case E2: hess_predict => [h2|//]; rewrite {1}/bind => Eg S.
have C1 : grad_correct (D t) ln kc (h_g h) y = Ok (h_g h1) by rewrite -hess_correctE E1.
have C2 : grad_predict (D t) kp (h_g h1) = Ok (h_g h2) by rewrite -hess_predictE E2.
have [c Ec] := grad_correct_run kp C1.
have [P' Ep] := grad_predict_run kc C2.
have [Xf Sn] := stays_step S Ec.
have E' : fs_k (g_s (h_g h1)) = k by rewrite (ht_g T1).
rewrite E' in Xf.
have [x2 [P2 [d2 [T2 n2]]]] := predict_step2 T1 E2 Xf.
have [G [nG Gt HG]] := IH _ _ _ _ _ _ _ T2 Eg (Sn _ _ Ep).
exists G; split=> //; apply: near_mp (near_and n1 (near_and n2 nG)) _ => r [E1r [E2r]].
by rewrite {2}/pem_gradient [grad_loop _ _ _ _ _ (y :: _)]/= E1r /= E2r.
Qed.
End Path.

(** * The parameters *)

(** Differentiability of a function of parameters and state in the region
    [S], with derivatives [fq] by the parameters and [fx] by the state: the
    chain rule along every pair of differentiable curves. *)
Definition fdiff nq nx m p (S : 'rV[RF]_nq -> 'rV[RF]_nx -> Prop) (f : 'rV[RF]_nq -> 'rV[RF]_nx -> 'M[RF]_(m, p))
    (fq : 'rV[RF]_nq -> 'rV[RF]_nx -> 'I_nq -> 'M[RF]_(m, p)) (fx : 'rV[RF]_nq -> 'rV[RF]_nx -> 'I_nx -> 'M[RF]_(m, p)) : Prop :=
  forall t q q' x x', S (q t) (x t) -> mderiv q t q' -> mderiv x t x' ->
    mderiv (fun r => f (q r) (x r)) t (\sum_a q' 0 a *: fq (q t) (x t) a + \sum_i x' 0 i *: fx (q t) (x t) i).
Definition pdiff nq m p (U : 'rV[RF]_nq -> Prop) (f : 'rV[RF]_nq -> 'M[RF]_(m, p)) (fq : 'rV[RF]_nq -> 'I_nq -> 'M[RF]_(m, p)) : Prop :=
  forall t q q', U (q t) -> mderiv q t q' -> mderiv (fun r => f (q r)) t (\sum_a q' 0 a *: fq (q t) a).

(** Regions that contain with a point the curves through it nearby. *)
Definition fopen nq nx (S : 'rV[RF]_nq -> 'rV[RF]_nx -> Prop) : Prop :=
  forall t q q' x x', mderiv q t q' -> mderiv x t x' -> S (q t) (x t) -> near t (fun r => S (q r) (x r)).
Definition popen nq (U : 'rV[RF]_nq -> Prop) : Prop :=
  forall t q q', mderiv q t q' -> U (q t) -> near t (fun r => U (q r)).

(** [d] is the partial derivative of [f] by parameter [a]: [f] has values
    around [q] on the line in that direction, with that derivative. *)
Definition partial nq (f : 'rV[RF]_nq -> res RF) (q : 'rV[RF]_nq) (a : 'I_nq) (d : RF) : Prop :=
  exists M : R -> RF, near (0 : RF) (fun r => f (q + (r : RF) *: delta_mx 0 a) = Ok (M r)) /\ sderiv M (0 : RF) d.

Section Params.
Variables nx ny nq : nat.
Variable dm : 'rV[RF]_nq -> dmodel RF nx ny nq.
Notation md q := (dm_md (dm q)).

(** Where the functions of the model are differentiable, given the
    parameters; and the parameters at which [R] and the initial state are. *)
Variables (X : 'rV[RF]_nq -> regions nx) (U : 'rV[RF]_nq -> Prop).

(** What the derivatives in the model are derivatives of. *)
Record diff_model : Prop := DiffModel {
  sm_f : forall k, fdiff (fun q => in_f (X q) k) (fun q x => md_f (md q) k x) (fun q x a => dm_df_dq (dm q) k x a) (fun q x i => row i (md_df_dx (md q) k x));
  sm_Q : forall k, fdiff (fun q => in_Q (X q) k) (fun q x => md_Q (md q) k x) (fun q x a => dm_dQ_dq (dm q) k x a) (fun q x i => dm_dQ_dx (dm q) k x i);
  sm_h : forall k, fdiff (fun q => in_h (X q) k) (fun q x => md_h (md q) k x) (fun q x a => dm_dh_dq (dm q) k x a) (fun q x i => row i (md_dh_dx (md q) k x));
  sm_R : pdiff U (fun q => md_R (md q)) (fun q a => dm_dR_dq (dm q) a);
  sm_Qsym : forall q k x, (md_Q (md q) k x)^T = md_Q (md q) k x;
  sm_Rsym : forall q, (md_R (md q))^T = md_R (md q) }.

Record diff_model2 : Prop := DiffModel2 {
  sm2_fq : forall k b, fdiff (fun q => in_f (X q) k) (fun q x => dm_df_dq (dm q) k x b) (fun q x a => dm_d2f_dq2 (dm q) k x a b) (fun q x i => dm_d2f_dx_dq (dm q) k x b i);
  sm2_fx : forall k i, fdiff (fun q => in_f (X q) k) (fun q x => row i (md_df_dx (md q) k x)) (fun q x a => dm_d2f_dx_dq (dm q) k x a i) (fun q x j => dm_d2f_dx2 (dm q) k x j i);
  sm2_Qq : forall k b, fdiff (fun q => in_Q (X q) k) (fun q x => dm_dQ_dq (dm q) k x b) (fun q x a => dm_d2Q_dq2 (dm q) k x a b) (fun q x i => dm_d2Q_dx_dq (dm q) k x b i);
  sm2_Qx : forall k i, fdiff (fun q => in_Q (X q) k) (fun q x => dm_dQ_dx (dm q) k x i) (fun q x a => dm_d2Q_dx_dq (dm q) k x a i) (fun q x j => dm_d2Q_dx2 (dm q) k x j i);
  sm2_hq : forall k b, fdiff (fun q => in_h (X q) k) (fun q x => dm_dh_dq (dm q) k x b) (fun q x a => dm_d2h_dq2 (dm q) k x a b) (fun q x i => dm_d2h_dx_dq (dm q) k x b i);
  sm2_hx : forall k i, fdiff (fun q => in_h (X q) k) (fun q x => row i (md_dh_dx (md q) k x)) (fun q x a => dm_d2h_dx_dq (dm q) k x a i) (fun q x j => dm_d2h_dx2 (dm q) k x j i);
  sm2_R : forall b, pdiff U (fun q => dm_dR_dq (dm q) b) (fun q a => dm_d2R_dq2 (dm q) a b);
  sm2_fsym : forall q k x i j, in_f (X q) k x -> dm_d2f_dx2 (dm q) k x i j = dm_d2f_dx2 (dm q) k x j i;
  sm2_hsym : forall q k x i j, in_h (X q) k x -> dm_d2h_dx2 (dm q) k x i j = dm_d2h_dx2 (dm q) k x j i }.

Record open_model : Prop := OpenModel {
  om_f : forall k, fopen (fun q => in_f (X q) k); om_Q : forall k, fopen (fun q => in_Q (X q) k);
  om_h : forall k, fopen (fun q => in_h (X q) k); om_U : popen U }.

(** The filter before the run, as a function of the parameters: state,
    covariance, log-likelihood and their derivatives. *)
Record start := Start {
  i_x : 'rV[RF]_nq -> 'rV[RF]_nx; i_P : 'rV[RF]_nq -> 'M[RF]_nx; i_L : 'rV[RF]_nq -> RF;
  i_d : 'rV[RF]_nq -> dstate RF nx nq; i_dL : 'rV[RF]_nq -> 'I_nq -> RF;
  i_d2 : 'rV[RF]_nq -> d2state RF nx nq; i_d2L : 'rV[RF]_nq -> 'I_nq -> 'I_nq -> RF }.
Variable st : start.
Record diff_start : Prop := DiffStart {
  is_x : pdiff U (i_x st) (fun q a => ds_x (i_d st q) a);
  is_P : pdiff U (i_P st) (fun q a => ds_P (i_d st q) a);
  is_L : pdiff U (fun q => (i_L st q)%:M : 'M[RF]_1) (fun q a => (i_dL st q a)%:M);
  is_sym : forall q, (i_P st q)^T = i_P st q }.
Record diff_start2 : Prop := DiffStart2 {
  is2_x : forall b, pdiff U (fun q => ds_x (i_d st q) b) (fun q a => d2_x (i_d2 st q) a b);
  is2_P : forall b, pdiff U (fun q => ds_P (i_d st q) b) (fun q a => d2_P (i_d2 st q) a b);
  is2_L : forall b, pdiff U (fun q => (i_dL st q b)%:M : 'M[RF]_1) (fun q a => (i_d2L st q a b)%:M) }.

Variables (kp kc : RF) (k : nat) (ys : seq (meas RF ny)).
Definition merit (q : 'rV[RF]_nq) : res RF :=
  pem_merit (ukf (md q) kp kc (@chol RF nx) (@chol RF nx)) ln (FS k (i_x st q) (i_P st q)) (i_L st q) ys.
Definition gstart (q : 'rV[RF]_nq) : gstate RF nx nq := GS (FS k (i_x st q) (i_P st q)) (i_L st q) (i_d st q) (i_dL st q).
Definition gradient (q : 'rV[RF]_nq) : res ('I_nq -> RF) := pem_gradient (dm q) ln kp kc (gstart q) ys.
Definition hessian (q : 'rV[RF]_nq) : res ('I_nq -> 'I_nq -> RF) :=
  pem_hessian (dm q) ln kp kc (HS (gstart q) (i_d2 st q) (i_d2L st q)) ys.

(** The run at [q] stays where the model is differentiable. *)
Definition regular (q : 'rV[RF]_nq) : Prop := U q /\ stays (md q) kp kc (X q) (FS k (i_x st q) (i_P st q)) ys.

Definition line (q : 'rV[RF]_nq) (a : 'I_nq) (r : R) : 'rV[RF]_nq := q + r *: delta_mx 0 a.
Lemma line_deriv q a t : mderiv (line q a) t (delta_mx 0 a).
Proof.
apply: mderiv_eq (mderivD (mderiv_const t q) (mderivZs (sderiv_id t) (mderiv_const t (delta_mx 0 a)))) _.
by rewrite scale1r scaler0 addr0 add0r.
Qed.
Lemma line0 q a : line q a 0 = q. Proof. by rewrite /line scale0r addr0. Qed.
Lemma sum_dir m p a (g : 'I_nq -> 'M[RF]_(m, p)) : \sum_c (delta_mx 0 a : 'rV[RF]_nq) 0 c *: g c = g a.
Proof.
rewrite (bigD1 a) //= mxE !eqxx scale1r big1 ?addr0 // => c /negPf nc.
by rewrite mxE nc andbF scale0r.
Qed.

Lemma fdiff_along m p n S (f : _ -> 'rV[RF]_n -> 'M[RF]_(m, p)) fq fx q a : fdiff S f fq fx ->
  along 0 (S (line q a 0)) (fun r x => f (line q a r) x) (fun x => fq (line q a 0) x a) (fun x i => fx (line q a 0) x i).
Proof. by move=> H x x' Sx Hx; apply: mderiv_eq (H _ _ _ _ _ Sx (line_deriv q a 0) Hx) _; rewrite sum_dir. Qed.
Lemma pdiff_line m p (f : _ -> 'M[RF]_(m, p)) fq q a : U q -> pdiff U f fq -> mderiv (fun r => f (line q a r)) 0 (fq (line q a 0) a).
Proof. by move=> Uq H; apply: mderiv_eq (H _ _ _ _ (line_deriv q a 0)) _; rewrite ?line0 // sum_dir. Qed.

Lemma line_path q a : diff_model -> U q -> path_diff 0 (fun r => dm (line q a r)) a (X (line q a 0)).
Proof.
move=> [Hf HQ Hh HR SQ SR] Uq; split=> // [k'|k'|k'|].
- exact: fdiff_along (Hf k').
- exact: fdiff_along (HQ k').
- exact: fdiff_along (Hh k').
- exact: pdiff_line Uq HR.
Qed.
Lemma line_path2 q a : diff_model -> diff_model2 -> U q -> path_diff2 0 (fun r => dm (line q a r)) a (X (line q a 0)).
Proof.
move=> SM [fq fx Qq Qx hq hx R2 Sf Sh] Uq; split=> // [k' b|k' i|k' b|k' i|k' b|k' i|b|b|k' x i j|k' x i j].
- exact: fdiff_along (fq k' b).
- exact: fdiff_along (fx k' i).
- exact: fdiff_along (Qq k' b).
- exact: fdiff_along (Qx k' i).
- exact: fdiff_along (hq k' b).
- exact: fdiff_along (hx k' i).
- exact: pdiff_line Uq (R2 b).
- have H := pdiff_line b Uq (sm_R SM).
  rewrite !line0 in H *; apply: symc_deriv H; apply: near_all => r; exact: sm_Rsym SM _.
- exact: Sf.
- exact: Sh.
Qed.
Lemma line_gtan q a : diff_start -> U q -> gtan 0 a k (fun r => i_x st (line q a r)) (fun r => i_P st (line q a r)) (fun r => i_L st (line q a r)) (gstart (line q a 0)).
Proof.
move=> [Hx HP HL SP] Uq; split=> //=; last first.
  have := pdiff_line a Uq HL => /(_ 0 0); rewrite mxE eqxx mulr1n.
  by apply: sderiv_ext => r; rewrite mxE eqxx mulr1n.
split; [exact: pdiff_line Uq Hx | exact: pdiff_line Uq HP |].
by apply: near_all => r.
Qed.
Lemma line_htan q a : diff_start -> diff_start2 -> U q ->
  htan 0 a k (fun r => i_x st (line q a r)) (fun r => i_P st (line q a r)) (fun r => i_L st (line q a r)) (fun r => i_d st (line q a r)) (fun r => i_dL st (line q a r))
    (HS (gstart (line q a 0)) (i_d2 st (line q a 0)) (i_d2L st (line q a 0))).
Proof.
move=> S1 [Hx HP HL] Uq; have [_ _ St1 L1] := line_gtan a S1 Uq; split=> //=.
  by move=> b; split; [exact: pdiff_line Uq (Hx b) | exact: pdiff_line Uq (HP b)].
move=> b; have := pdiff_line a Uq (HL b) => /(_ 0 0); rewrite mxE eqxx mulr1n.
by apply: sderiv_ext => r; rewrite mxE eqxx mulr1n.
Qed.

(** The gradient has a value wherever the merit has, and conversely. *)
Theorem C43_total : diff_model -> diff_start -> forall q,
  (exists m, merit q = Ok m) <-> (exists g, gradient q = Ok g).
Proof.
move=> SM SS q; split=> [[m Em]|[g]].
  have [g' Eg _] := @grad_total _ _ _ _ (dm q) ln kp kc (sm_Qsym SM q) (sm_Rsym SM q) (gstart q) ys m (is_sym SS q) Em.
  by exists (g_dL g'); rewrite /gradient /pem_gradient Eg.
rewrite /gradient /pem_gradient; case Eg: grad_loop => [g'|//] _.
by exists (g_L g'); exact: grad_merit Eg.
Qed.

(** The gradient is the vector of partial derivatives of the merit. *)
Theorem C43_gradient : diff_model -> diff_start -> forall q g, regular q -> gradient q = Ok g ->
  forall a, partial merit q a (g a).
Proof.
move=> SM SS q g [Uq Sq] + a; rewrite /gradient /pem_gradient; case Eg: grad_loop => [g'|//] [<-].
have Eg' : grad_loop (dm (line q a 0)) ln kp kc (gstart (line q a 0)) ys = Ok g' by rewrite line0.
have Sq' : stays (md (line q a 0)) kp kc (X (line q a 0)) (g_s (gstart (line q a 0))) ys by rewrite line0.
have [M [nM _ HM]] := gradient_path (X := fun r => X (line q a r)) (line_path a SM Uq) (line_gtan a SS Uq) Eg' Sq'.
by exists M.
Qed.

(** Partial derivatives are unique, so nothing else is the gradient. *)
Theorem C43_unique (f : 'rV[RF]_nq -> res RF) q a d d' : partial f q a d -> partial f q a d' -> d = d'.
Proof.
move=> [M [nM HM]] [N [nN HN]]; apply: sderiv_unique HM _.
by apply: sderiv_near HN; apply: near_mp (near_and nM nN) _ => r [->] [].
Qed.

Theorem C44_total : diff_model -> diff_start -> forall q,
  (exists m, merit q = Ok m) <-> (exists h, hessian q = Ok h).
Proof.
move=> SM SS q; rewrite (C43_total SM SS q); rewrite /gradient /hessian /pem_gradient /pem_hessian.
rewrite -[grad_loop _ _ _ _ _ _](hess_loopE (dm q) ln kp kc (HS (gstart q) (i_d2 st q) (i_d2L st q)) ys).
case: hess_loop => [h|e] /=; first by split=> _; eexists.
by split=> -[].
Qed.

(** The Hessian is the matrix of second partial derivatives: [hessian q a b]
    is the derivative, in direction [a], of the partial derivative of the
    merit in direction [b]. *)
Theorem C44_hessian : diff_model -> diff_model2 -> open_model -> diff_start -> diff_start2 -> forall q h, regular q -> hessian q = Ok h ->
  forall a b, exists G : R -> RF, near (0 : RF) (fun r => partial merit (q + (r : RF) *: delta_mx 0 a) b (G r)) /\ sderiv G (0 : RF) (h a b).
Proof.
move=> SM SM2 OM SS SS2 q h [Uq Sq] + a b; rewrite /hessian /pem_hessian; case Eh: hess_loop => [h'|//] [<-].
have Eh' : hess_loop (dm (line q a 0)) ln kp kc (HS (gstart (line q a 0)) (i_d2 st (line q a 0)) (i_d2L st (line q a 0))) ys = Ok h' by rewrite line0.
have Sq' : stays (md (line q a 0)) kp kc (X (line q a 0)) (g_s (gstart (line q a 0))) ys by rewrite line0.
have [G [nG _ HG]] := hessian_path (X := fun r => X (line q a r)) (line_path a SM Uq) (line_path2 a SM SM2 Uq) (line_htan a SS SS2 Uq) Eh' Sq'.
have Eg' : grad_loop (dm (line q a 0)) ln kp kc (gstart (line q a 0)) ys = Ok (h_g h').
  by rewrite -[gstart _]/(h_g (HS (gstart (line q a 0)) (i_d2 st (line q a 0)) (i_d2L st (line q a 0)))) -hess_loopE Eh'.
have nS := stays_near (X := fun r => X (line q a r)) (line_path a SM Uq)
  (fun k z z' Hz => om_f OM (k := k) (line_deriv q a 0) Hz) (fun k z z' Hz => om_Q OM (k := k) (line_deriv q a 0) Hz) (fun k z z' Hz => om_h OM (k := k) (line_deriv q a 0) Hz)
  (line_gtan a SS Uq) Eg' Sq'.
have nU : near (0 : RF) (fun r => U (line q a r)) by apply: om_U OM _ _ _ (line_deriv q a 0) _; rewrite line0.
exists (fun r => G r b); split=> //.
apply: near_mp (near_and nG (near_and nS nU)) _ => r [Er [Sr Ur]].
by apply: C43_gradient SM SS _ _ _ Er b; split.
Qed.
End Params.

(** A model with one parameter, [x' = q x], [y = x], and unit covariances. *)
Section Example43.
Definition ex_dm (q : 'rV[RF]_1) : dmodel RF 1 1 1 :=
  DModel (Model (fun _ x => q 0 0 *: x) (fun _ _ => (q 0 0)%:M) (fun _ _ => 1%:M) (fun _ x => x) (fun _ _ => 1%:M) 1%:M)
    (fun _ x _ => x) (fun _ _ _ => 0) (fun _ _ _ => 0) (fun _ _ _ => 0) (fun _ => 0)
    (fun _ _ _ _ => 0) (fun _ _ _ _ => 0) (fun _ _ _ i => row i 1%:M) (fun _ _ _ _ => 0) (fun _ _ _ _ => 0) (fun _ _ _ _ => 0)
    (fun _ _ _ _ => 0) (fun _ _ _ _ => 0) (fun _ _ _ _ => 0) (fun _ _ => 0).
Definition ex_start : start 1 1 :=
  Start (fun _ => 1%:M) (fun _ => 1%:M) (fun _ => 0) (fun _ => DS (fun _ => 0) (fun _ => 0)) (fun _ _ => 0)
    (fun _ => D2S (fun _ _ => 0) (fun _ _ => 0)) (fun _ _ _ => 0).

Definition everywhere (q : 'rV[RF]_1) : regions 1 := Regions (fun _ _ => True) (fun _ _ => True) (fun _ _ => True).
Definition every_q (q : 'rV[RF]_1) : Prop := True.

Example C43_C44_nonvacuous :
  [/\ diff_model ex_dm everywhere every_q /\ diff_model2 ex_dm everywhere every_q, open_model everywhere every_q,
      diff_start every_q ex_start, diff_start2 every_q ex_start &
    forall q ys, regular ex_dm everywhere every_q ex_start 1 1 0 ys q /\ exists m, merit ex_dm ex_start 1 1 0 ys q = Ok m].
Proof.
have sc0 m p n (c : 'rV[RF]_n) : \sum_i c 0 i *: (0 : 'M[RF]_(m, p)) = 0 by apply: big1 => i _; rewrite scaler0.
have cst m p (C : 'M[RF]_(m, p)) : fdiff (fun (_ _ : 'rV[RF]_1) => True) (fun (_ _ : 'rV[RF]_1) => C) (fun _ _ _ => 0) (fun _ _ _ => 0).
  by move=> t q q' x x' _ Hq Hx; rewrite !sc0 addr0; exact: mderiv_const.
have pcst m p (C : 'M[RF]_(m, p)) : pdiff every_q (fun (_ : 'rV[RF]_1) => C) (fun _ _ => 0).
  by move=> t q q' _ Hq; rewrite sc0; exact: mderiv_const.
have r1 (x : 'rV[RF]_1) : \sum_i x 0 i *: row i (1%:M : 'M[RF]_1) = x.
  by rewrite big_ord1; apply/matrixP => i j; rewrite !ord1 !mxE eqxx mulr1.
split.
- split; split=> //=.
  + move=> k t q q' x x' _ Hq Hx; apply: mderiv_eq (mderivZs (Hq 0 0) Hx) _.
    rewrite !big_ord1; congr (_ + _); apply/matrixP => i j; rewrite !ord1 !mxE eqxx mulr1n; exact: mulrC.
  + move=> k t q q' x x' _ Hq Hx; rewrite sc0 add0r r1; exact: Hx.
  + by move=> q k x; rewrite trmx1.
  + by move=> q; rewrite trmx1.
  + move=> k b t q q' x x' _ Hq Hx; rewrite sc0 add0r r1; exact: Hx.
  + move=> k i t q q' x x' _ Hq Hx; rewrite sc0 addr0.
    apply: mderiv_eq; first apply: (mderiv_ext (M := fun r => q r 0 0 *: row i 1%:M)).
    * by move=> r; apply/matrixP => u v; rewrite !mxE mulr_natr.
    * exact: mderivZs (Hq 0 0) (mderiv_const t _).
    by rewrite big_ord1 scaler0 addr0.
- by split=> [k|k|k|] t *; apply: near_all.
- split=> //=; last by move=> q; rewrite trmx1.
  by move=> t q q' Uq Hq; apply: mderiv_eq (pcst _ _ _ _ _ _ Uq Hq) _; apply: eq_bigr => i _; rewrite scaler0 raddf0 scaler0.
- split=> //=.
  by move=> b t q q' Uq Hq; apply: mderiv_eq (pcst _ _ _ _ _ _ Uq Hq) _; apply: eq_bigr => i _; rewrite scaler0 raddf0 scaler0.
- move=> q ys; split.
    by split=> //; elim: ys (FS _ _ _) => [|y ys IH] s //=; split=> // s1 c _ _; split.
  have [l _ E] := @C42_total 1 1 (dm_md (ex_dm q)) 1 1 (@chol RF 1) (@chol RF 1) (FS 0 (i_x ex_start q) (i_P ex_start q)) (i_L ex_start q) ys
    ler01 (ltr_paddr ler01 ltr01) (@chol_is_root RF 1) ler01 (ltr_paddr ler01 ltr01) (@chol_is_root RF 1) (pd1 _ _) (fun _ _ => pd1 _ _) (pd1 _ _).
  by eexists; exact: E.
Qed.
End Example43.
