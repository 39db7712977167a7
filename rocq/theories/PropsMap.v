(** Smoothing: covariance bounds and the batch least-squares problem (C41). *)
From Coq Require Import String.
From Verif Require Import Py.
From mathcomp Require Import all_ssreflect all_algebra.
From Verif Require Import McRing KalModel PsdLemmas CholLemmas UtLemmas GainLemmas PropsUt KalLemmas PropsKal PropsSmooth.
Set Implicit Arguments.
Unset Strict Implicit.
Unset Printing Implicit Defensive.
Import Order.TTheory GRing.Theory Num.Theory.
Local Open Scope ring_scope.

Section Map.
Variable F : rcfType.
Let FC := [comRingType of F].
Add Ring Fm : (com_rt FC).
Variables nx ny : nat.
Implicit Types (md : model F nx ny) (s : fstate F nx) (y : meas F ny) (flt : filter_class F nx ny).
Notation est := ('rV[F]_nx * 'M[F]_nx)%type.
#[local] Arguments filter : simpl never.
#[local] Arguments smooth : simpl never.

(** What the bound needs of a filter, for covariances satisfying [I]. *)
Definition good flt (I : 'M[F]_nx -> Prop) :=
  [/\ forall P, I P -> psd P,
      forall s y, I (fs_P s) -> exists s' c, [/\ correct flt s y = Ok (s', c), I (fs_P s') & loewner (fs_P s') (fs_P s)] &
      forall s, I (fs_P s) -> exists s' X, [/\ predict flt s = Ok (s', X), I (fs_P s'), pd (fs_P s') &
        psd (block_mx (fs_P s) X X^T (fs_P s'))]].

Lemma ekf_good md : (forall k x, pd (md_Q md k x)) -> pd (md_R md) -> good (ekf md) (@psd F nx).
Proof.
move=> PQ PR; split=> // [s y PP|s PP].
  by have [s' [c [E _ P1 L _]]] := ekf_correct_pd y PP PR; exists s', c.
have [s' [X [E _ P1]]] := ekf_predict_pd PP (PQ (fs_k s) (fs_x s)).
exists s', X; split=> //; first exact: pd_psd.
move: E => [<- <-] /=; set A := md_df_dx _ _ _.
have -> : block_mx (fs_P s) (fs_P s *m A) (fs_P s *m A)^T (A^T *m (fs_P s *m A) + md_Q md (fs_k s) (fs_x s))
  = block_mx (fs_P s) (fs_P s *m A) (fs_P s *m A)^T (A^T *m (fs_P s *m A)) + block_mx 0 0 0 (md_Q md (fs_k s) (fs_x s)).
  by rewrite add_block_mx !addr0.
apply: psdD; first exact: joint_linear.
have -> : block_mx 0 0 0 (md_Q md (fs_k s) (fs_x s)) = col_mx 0 1%:M *m md_Q md (fs_k s) (fs_x s) *m (col_mx 0 1%:M)^T :> 'M[F]_(nx + nx).
  by rewrite tr_col_mx trmx0 trmx1 mul_col_mx mul0mx mul1mx mul_col_row !mul0mx mulmx0 mulmx1.
by apply: psd_cong; apply: pd_psd.
Qed.

Lemma ukf_good md kp kc rp rc : 0 <= kp -> 0 < nx%:R + kp -> is_root rp -> 0 <= kc -> 0 < nx%:R + kc -> is_root rc ->
  (forall k x, pd (md_Q md k x)) -> pd (md_R md) -> good (ukf md kp kc rp rc) (@pd F nx).
Proof.
move=> kp0 mp rrp kc0 mc rrc PQ PR; split=> [P|s y PP|s PP]; first exact: pd_psd.
  by have [s' [c [E _ P1 L]]] := ukf_correct_pd y kc0 mc rrc PP PR; exists s', c.
have [s' [X [E _ P1]]] := ukf_predict_pd kp0 mp rrp PP (PQ (fs_k s) (fs_x s)).
exists s', X; split=> //.
move: E; rewrite /ukf_predict.
case ET : (transform _ _ _ _ _) => [u|e] //= [<- <-] /=.
have [Sq ES RS] := rrp _ (pdZ mp PP).
have ESu : u_S u = Sq by have := u_SE ET; rewrite ES => -[->].
rewrite -ESu in RS; have mn : nx%:R + kp != 0 by rewrite gt_eqF.
have -> : block_mx (fs_P s) (crosscov u) (crosscov u)^T (u_Po u + md_Q md (fs_k s) (fs_x s))
  = block_mx (fs_P s) (crosscov u) (crosscov u)^T (u_Po u) + block_mx 0 0 0 (md_Q md (fs_k s) (fs_x s)).
  by rewrite add_block_mx !addr0.
apply: psdD; first exact: (joint_psd mn ET).
have -> : block_mx 0 0 0 (md_Q md (fs_k s) (fs_x s)) = col_mx 0 1%:M *m md_Q md (fs_k s) (fs_x s) *m (col_mx 0 1%:M)^T :> 'M[F]_(nx + nx).
  by rewrite tr_col_mx trmx0 trmx1 mul_col_mx mul0mx mul1mx mul_col_row !mul0mx mulmx0 mulmx1.
by apply: psd_cong; apply: pd_psd.
Qed.

(** One backward step. *)
Lemma smoother_step (P X Pp Ps Pf : 'M[F]_nx) x xp xs inc :
  psd P -> pd Pp -> psd (block_mx P X X^T Pp) -> psd Ps -> loewner Ps Pf -> loewner Pf Pp ->
  smoother_correction xp Pp X xs Ps = Ok inc ->
  inc = ((xs - xp) *m (X *m invmx Pp)^T, X *m invmx Pp *m (Ps - Pp) *m (X *m invmx Pp)^T) /\
  psd (P + inc.2) /\ loewner (P + inc.2) P /\ x + inc.1 = x + (xs - xp) *m (X *m invmx Pp)^T.
Proof.
move=> PP PPp J PPs L1 L2; rewrite /smoother_correction /inv pd_unit //= => -[<-] /=.
set G := X *m invmx Pp; split=> //; split; last split=> //.
  have -> : P + G *m (Ps - Pp) *m G^T = (P - G *m Pp *m G^T) + G *m Ps *m G^T.
    by rewrite mulmxBr mulmxBl addrA addrAC.
  apply: psdD; last exact: psd_cong.
  rewrite -(errcov_gain P X (pd_sym PPp) (pd_unit PPp)) -[X in errcov _ _ X _]addr0.
  by apply: errcov_psd => //; apply: psd0.
rewrite /loewner opprD addrA subrr add0r.
have -> : - (G *m (Ps - Pp) *m G^T) = G *m (Pp - Ps) *m G^T by rewrite -mulNmx -mulmxN opprB.
by apply: psd_cong; apply: (loewner_trans L1 L2).
Qed.

(** Positions of two lists of estimates. *)
Definition bounded (ls lf : seq est) := forall i, (i < size lf)%N ->
  psd (nth (0, 0) ls i).2 /\ loewner (nth (0, 0) ls i).2 (nth (0, 0) lf i).2.

Lemma smooth_bounded flt I s ys : good flt I -> I (fs_P s) -> ys <> [::] ->
  exists ls lf s', [/\ smooth flt s ys = Ok (ls, s'), filter flt s ys = Ok (lf, s'), size ls = size lf & bounded ls lf].
Proof.
move=> [I0 IC IP]; elim: ys s => [|y [|y' ys] IH] s PP // _.
  have [s' [c [E P1 L]]] := IC s y PP.
  do 3!eexists; split; [exact: smooth_end E|exact: filter_end E|by []|].
  by case=> [|i] //= _; split; [apply: I0|apply: loewner_refl].
have [s1 [c [E1 P1 L1]]] := IC s y PP; have [s2 [X [E2 P2 PD2 J]]] := IP s1 P1.
have [//|ls [lf [s' [S1 S2 sz B]]]] := IH s2 P2.
(* the first corrected covariance of the tail is below the prediction *)
have [e1 [lf' [lfE LF]]] : exists e1 lf', lf = e1 :: lf' /\ loewner e1.2 (fs_P s2).
  have [s3 [c3 [E3 P3 L3]]] := IC s2 y' P2.
  case: (ys) S2 => [|y'' ys']; first by rewrite (filter_end E3) => -[<- _]; exists (fs_x s3, fs_P s3), [::].
  case/filter_inv => s3' [c3' [s4 [X4 [l4 [E3' _ _ ->]]]]].
  by move: E3'; rewrite E3 => -[<- _]; exists (fs_x s3, fs_P s3), l4.
have [P0 B0] := B 0%N (ltac:(by rewrite lfE)); rewrite nth0 in P0 B0.
have h1 : nth (0, 0) lf 0 = e1 by rewrite lfE.
rewrite h1 in B0.
case E4 : (smoother_correction (fs_x s2) (fs_P s2) X (head (0, 0) ls).1 (head (0, 0) ls).2) => [inc|e]; last first.
  by move: E4; rewrite /smoother_correction /inv pd_unit.
have [_ [Q1 [Q2 _]]] := smoother_step (fs_x s1) (I0 _ P1) PD2 J P0 B0 LF E4.
do 3!eexists; split.
- by rewrite (smooth_step _ _ E1 E2) S1 /= E4.
- by rewrite (filter_step _ _ E1 E2) S2.
- by rewrite /= sz.
- by case=> [|i] /= li; [split|apply: B].
Qed.

(** Smoothed covariances are positive semidefinite and never exceed the
    filtered ones; smoothing does not fail. *)
Theorem C41_covariance_ekf md s ys : psd (fs_P s) -> (forall k x, pd (md_Q md k x)) -> pd (md_R md) -> ys <> [::] ->
  exists ls lf s', [/\ smooth (ekf md) s ys = Ok (ls, s'), filter (ekf md) s ys = Ok (lf, s'), size ls = size lf & bounded ls lf].
Proof. by move=> PP PQ PR; apply: smooth_bounded (ekf_good PQ PR) PP. Qed.
Theorem C41_covariance_ukf md kp kc rp rc s ys :
  0 <= kp -> 0 < nx%:R + kp -> is_root rp -> 0 <= kc -> 0 < nx%:R + kc -> is_root rc ->
  pd (fs_P s) -> (forall k x, pd (md_Q md k x)) -> pd (md_R md) -> ys <> [::] ->
  exists ls lf s', [/\ smooth (ukf md kp kc rp rc) s ys = Ok (ls, s'), filter (ukf md kp kc rp rc) s ys = Ok (lf, s'),
    size ls = size lf & bounded ls lf].
Proof. by move=> *; apply: (smooth_bounded (I := @pd F nx)) => //; apply: ukf_good. Qed.

(** * The batch problem *)

(** Minus twice the log-posterior, up to constants: the squared distances of
    the initial state to its prior, of each unmasked measurement to its
    prediction, and of each state to the transition from the previous one, in
    the inverse-covariance metric. *)
Definition meas_cost md k y x : F :=
  qf (invmx (pick2 (active y) (md_R md))) (pick (active y) (y_data y) - pick (active y) (md_h md k x)).
Definition trans_cost md k x x' : F := qf (invmx (md_Q md k x)) (x' - md_f md k x).
Fixpoint path_cost md k (ys : seq (meas F ny)) (xs : seq 'rV[F]_nx) : F :=
  match ys, xs with
  | y :: ys', x :: xs' =>
      meas_cost md k y x +
      match xs' with [::] => 0 | x' :: _ => trans_cost md k x x' + path_cost md k.+1 ys' xs' end
  | _, _ => 0
  end.
Definition batch_cost md s ys xs : F := qf (invmx (fs_P s)) (head 0 xs - fs_x s) + path_cost md (fs_k s) ys xs.

Lemma batch_cost2 md s y y' ys z z' zs : batch_cost md s [:: y, y' & ys] [:: z, z' & zs]
  = qf (invmx (fs_P s)) (z - fs_x s) + (meas_cost md (fs_k s) y z + (trans_cost md (fs_k s) z z' + path_cost md (fs_k s).+1 (y' :: ys) (z' :: zs))).
Proof. by []. Qed.

Section Affine.
Variables (md : model F nx ny) (A : nat -> 'M[F]_nx) (b : nat -> 'rV[F]_nx) (C : nat -> 'M[F]_(nx, ny)) (d : nat -> 'rV[F]_ny).
Hypothesis aff : affine md A b C d.
Variable Q : nat -> 'M[F]_nx.
Hypotheses (QE : forall k x, md_Q md k x = Q k) (PQ : forall k, pd (Q k)) (PR : pd (md_R md)).

Lemma correct_cost s y s1 c : pd (fs_P s) -> ekf_correct md s y = Ok (s1, c) ->
  [/\ pd (fs_P s1), fs_k s1 = fs_k s &
  exists c0, forall x, qf (invmx (fs_P s)) (x - fs_x s) + meas_cost md (fs_k s) y x = qf (invmx (fs_P s1)) (x - fs_x s1) + c0].
Proof.
move=> PP; have [A0|nA] := eqVneq (active y) set0.
  rewrite ekf_correct0 // => -[<- _]; split=> //; exists 0 => x; congr (_ + _).
  rewrite /meas_cost /qf mxE big1 // => i _; have := ltn_ord i.
  by rewrite {2}A0 cards0.
have PRA := pd_pick2 (active y) PR; have PPs := pd_psd PP.
rewrite ekf_correctE //; last by apply: pd_unit; apply: inncov_pd.
case=> <- _ /=; split=> //; first by apply: post_pd => //; apply: pd_unit.
case: aff => _ _ hE dhE; rewrite dhE.
set H := pick _ (C _); set R := pick2 _ _.
set e := pick _ (y_data y) - pick _ (md_h md _ (fs_x s)).
exists (qf (invmx (inncov (fs_P s) H R)) e) => x.
have -> : meas_cost md (fs_k s) y x = qf (invmx R) (e - (x - fs_x s) *m H).
  rewrite /meas_cost; congr (qf _ _); rewrite /e !hE !pickD !pick_mul mulmxBl -/H.
  by mx_norm FC; ring.
rewrite complete_square //; last exact: pd_unit.
by rewrite opprD addrA.
Qed.

Lemma predict_cost s s2 X : pd (fs_P s) -> ekf_predict md s = Ok (s2, X) ->
  [/\ pd (fs_P s2), fs_k s2 = (fs_k s).+1 &
  exists2 Cv, pd Cv & forall x x', qf (invmx (fs_P s)) (x - fs_x s) + trans_cost md (fs_k s) x x'
    = qf (invmx Cv) (x - (fs_x s + (x' - fs_x s2) *m (X *m invmx (fs_P s2))^T)) + qf (invmx (fs_P s2)) (x' - fs_x s2)].
Proof.
move=> PP; have PPs := pd_psd PP; have PQk : pd (md_Q md (fs_k s) (fs_x s)) by rewrite QE.
have [s' [X' [E _ P1]]] := ekf_predict_pd PPs PQk; rewrite E => -[e1 e2]; rewrite e1 in P1.
move: E => [E1 E2]; split=> //; first by rewrite -e1 -E1.
 case: aff => fE dfE _ _.
have xE : fs_x s2 = fs_x s *m A (fs_k s) + b (fs_k s) by rewrite -e1 -E1 /= fE.
have PE : fs_P s2 = inncov (fs_P s) (A (fs_k s)) (Q (fs_k s)) by rewrite -e1 -E1 /= dfE QE.
have XE : X = fs_P s *m A (fs_k s) by rewrite -e2 -E2 dfE.
exists (post (fs_P s) (A (fs_k s)) (Q (fs_k s))); first by apply: post_pd => //; apply: pd_unit.
move=> x x'; rewrite /trans_cost QE.
have -> : x' - md_f md (fs_k s) x = (x' - fs_x s2) - (x - fs_x s) *m A (fs_k s).
  rewrite fE xE mulmxBl; set u := x *m _; set v := fs_x s *m _; set w := b _.
  by mx_norm FC; ring.
rewrite complete_square //; last exact: pd_unit.
by rewrite -/(gain _ _ _) XE PE opprD addrA.
Qed.

(** The smoothed path is the unique minimiser of the batch cost. *)
Theorem C41_map s ys ls s' : pd (fs_P s) -> smooth (ekf md) s ys = Ok (ls, s') ->
  forall xs, size xs = size ys ->
  batch_cost md s ys (map fst ls) <= batch_cost md s ys xs /\
  (batch_cost md s ys xs = batch_cost md s ys (map fst ls) -> xs = map fst ls).
Proof.
elim: ys s ls => [|y [|y' ys] IH] s ls PP //.
  rewrite smooth1; case E : (correct (ekf md) s y) => [[s1 c]|e] //= [<- _] [|x [|]] //= _.
  have [P1 _ [c0 H]] := correct_cost PP E.
  rewrite /batch_cost /= !addr0 !H subrr qf0 add0r; split.
    by rewrite ler_addr (proj2 (pd_psd (pd_inv P1))).
  move=> /eqP; rewrite -subr_eq0 addrK => Z; congr [:: _]; apply/eqP; rewrite -subr_eq0.
  by apply: contraTT Z => nz; rewrite gt_eqF // (proj2 (pd_inv P1)).
case/smooth_inv => s1 [c [s2 [X [l' [inc [E1 E2 E3 E4 ->]]]]]] [|x [|x' xs]] //= [sz].
have [P1 k1 [c0 H1]] := correct_cost PP E1; have [P2 k2 [Cv PCv H2]] := predict_cost P1 E2.
have {IH} := IH s2 l' P2 E3; have [l1 [_ _ szl _]] := smooth_filter E3.
case: l' E3 E4 szl => [|[xs1 Ps1] l'] //= E3 E4 [szl] IH.
have [IH1 IH2] := IH (x' :: xs) (ltac:(by rewrite /= sz)).
(* the cost in terms of the tail *)
have cost z z' zs : batch_cost md s [:: y, y' & ys] [:: z, z' & zs]
    = c0 + batch_cost md s2 (y' :: ys) (z' :: zs)
      + qf (invmx Cv) (z - (fs_x s1 + (z' - fs_x s2) *m (X *m invmx (fs_P s2))^T)).
  rewrite batch_cost2 /batch_cost [head _ _]/=.
  have H1' := H1 z; have H2' := H2 z z'; rewrite k1 in H2'; rewrite k2 k1.
  set p := path_cost _ _ _ _; move: H1' H2'.
  set a1 := qf _ (z - fs_x s); set a2 := meas_cost _ _ _ _; set a3 := qf _ (z - fs_x s1).
  set a4 := trans_cost _ _ _ _; set a5 := qf _ (z' - _); set a6 := qf (invmx Cv) _ => K1 K2.
  have -> : a1 + (a2 + (a4 + p)) = (a1 + a2) + (a4 + p) by rewrite !addrA.
  rewrite K1; have -> : a3 + c0 + (a4 + p) = (a3 + a4) + (c0 + p) by rewrite addrACA.
  by rewrite K2 -addrA addrC addrCA addrA.
have inc1 : inc.1 = (xs1 - fs_x s2) *m (X *m invmx (fs_P s2))^T.
  by move: E4; rewrite /smoother_correction /inv pd_unit //= => -[<-].
rewrite !cost inc1 subrr qf0 addr0; set q := qf _ _.
have q0 : 0 <= q by apply: (proj2 (pd_psd (pd_inv PCv))).
split; first by rewrite -[X in X <= _]addr0 ler_add // ler_add2l.
move=> E; have q1 : q = 0.
  by apply/eqP; rewrite eq_le q0 andbT -(ler_add2l (c0 + batch_cost md s2 (y' :: ys) (x' :: xs))) E addr0 ler_add2l.
move: E; rewrite q1 addr0 => /addrI /IH2 [x'E xsE]; rewrite x'E xsE; congr (_ :: _).
apply/eqP; rewrite -subr_eq0 -x'E; apply: contraT => nz.
by have := proj2 (pd_inv PCv) _ nz; rewrite -/q q1 ltxx.
Qed.
End Affine.
End Map.

(** The same for the unscented filter, by C39. *)
Theorem C41_map_ukf (F : rcfType) nx ny (md : model F nx ny) A b C d Q kp kc rp rc s ys ls s' :
  affine md A b C d -> (forall k x, md_Q md k x = Q k) -> (forall k, pd (Q k)) -> pd (md_R md) ->
  0 < nx%:R + kp -> sound_root rp -> is_root rp -> 0 < nx%:R + kc -> sound_root rc -> is_root rc ->
  pd (fs_P s) -> smooth (ukf md kp kc rp rc) s ys = Ok (ls, s') ->
  forall xs, size xs = size ys ->
  batch_cost md s ys (map fst ls) <= batch_cost md s ys xs /\
  (batch_cost md s ys xs = batch_cost md s ys (map fst ls) -> xs = map fst ls).
Proof.
move=> aff QE PQ PR mp srp rrp mc src rrc PP.
have PQ' k x : pd (md_Q md k x) by rewrite QE.
have [_ [-> _]] := C39_filter_smooth ys aff mp srp rrp mc src rrc PP PQ' PR.
exact: (C41_map aff QE PQ PR PP).
Qed.

Example C39_C41_nonvacuous (F : rcfType) :
  affine (ex_md F) (fun=> 1%:M) (fun=> 0) (fun=> const_mx 1) (fun=> 0) /\
  exists ls s', smooth (ekf (ex_md F)) (ex_s F) [:: ex_y F; ex_y F] = Ok (ls, s') /\ size ls = 2%N.
Proof.
split; first by split=> // k x /=; rewrite ?mulmx1 addr0.
have [||||ls [lf [s' [E1 E2 sz _]]]] := @C41_covariance_ekf F 1 2 (ex_md F) (ex_s F) [:: ex_y F; ex_y F] => //.
- exact: psd1.
- by move=> k x; apply: pd1.
- exact: pd1.
by exists ls, s'; split=> //; rewrite sz (filter_size E2).
Qed.
