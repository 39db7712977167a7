(** Corner cases of the filters: parts of C75 (empty data, [kappa = -n]), and
    C76: means and covariances that are not stacked alike. *)
From Coq Require Import String Ascii.
From Verif Require Import Py.
From mathcomp Require Import all_ssreflect all_algebra.
From Verif Require Import KalModel PsdLemmas CholLemmas PropsUt KalLemmas NpModel NpLemmas NdKalModel NpOps NdCholLemmas.
Set Implicit Arguments.
Unset Strict Implicit.
Unset Printing Implicit Defensive.
Import Order.TTheory GRing.Theory Num.Theory.
Local Open Scope ring_scope.

Section Edge.
Variable F : rcfType.

(** No samples: [filter] returns no estimates and leaves the state alone,
    [smooth] raises ValueError; alone or on a stack. *)
Theorem C75_no_samples nx ny (fl : filter_class F nx ny) (nf : nfilter F) s t :
  [/\ filter fl s [::] = Ok ([::], s), smooth fl s [::] = Err ValueError,
      nd_filter nf t [::] = Ok ([::], t) & nd_smooth nf t [::] = Err ValueError].
Proof. by []. Qed.

(** A transform is created exactly when the divisor of its weights is not zero. *)
Theorem C75_kappa ni (kappa : F) :
  (ut_init ni kappa = Ok tt <-> ni%:R != - kappa) /\
  (ut_init ni kappa = Err AssertionError <-> ni%:R = - kappa).
Proof.
rewrite /ut_init -[_ + _]/(ni%:R + kappa) addr_eq0.
by case: (ni%:R =P - kappa) => H; split; split.
Qed.

(** * C76 *)
Variables (nx : nat) (kappa : F) (nsq : nd F -> res (nd F)) (x P Sq : nd F).
Hypothesis nx1 : (1 < nx)%N.
Hypothesis HSq : nsq (nd_scale (nx%:R + kappa) P) = Ok Sq.

(** The deviations of the sigma points, element [e] of the stack, point [s],
    component [j]. *)
Definition dev (idev : nd F) (e : seq nat) (s j : nat) : F := get idev (s :: e ++ [:: j]).

Lemma nsigma_ge : (2 * nx <= nsigma nx kappa)%N.
Proof. by rewrite /nsigma addnn mul2n leq_addr. Qed.

Lemma shared_bcast b c : bcast (nx :: rcons b c ++ [:: nx]) [:: nx; nx] =
  if c == nx then Ok (nx :: rcons b c ++ [:: nx]) else if c == 1%N then Ok (nx :: rcons b nx ++ [:: nx]) else Err ValueError.
Proof.
rewrite /bcast cats1 rev_cons !rev_rcons /= /bdim eqxx /=.
have E s : bcast_rev s [::] = Ok s by case: s.
have [->|cn] := eqVneq c nx; first by rewrite E /= !rev_cons rev_rcons revK ?cats1.
have [_|c1] := eqVneq c 1%N; first by rewrite E /= !rev_cons rev_rcons revK ?cats1.
by rewrite gtn_eqF.
Qed.

(** A stack of means, the last axis of which has length [c], with one shared
    covariance: unless [c = nx], creating sigma points raises ValueError.  If
    [c = nx], nothing is raised and the deviations of element [e ++ [k]] are
    row [k] of the root for all of the first [nx] points, and its opposite for
    the others. *)
Theorem C76_shared_covariance b c : shape x = rcons b c ++ [:: nx] -> shape Sq = [:: nx; nx] ->
  match nd_sigma_points nx kappa nsq x P with
  | Ok (_, idev, _) => c = nx /\ forall e k s j, size e = size b -> (k < nx)%N -> (j < nx)%N ->
      [/\ (s < nx)%N -> dev idev (rcons e k) s j = get Sq [:: k; j],
          (nx <= s < 2 * nx)%N -> dev idev (rcons e k) s j = - get Sq [:: k; j]
        & (2 * nx <= s)%N -> dev idev (rcons e k) s j = 0]
  | Err er => c <> nx /\ er = ValueError
  end.
Proof.
move=> Hx HS.
have N1 : (nx <= nsigma nx kappa)%N by apply: leq_trans nsigma_ge; rewrite mul2n -addnn leq_addr.
have m1 : minn nx (nsigma nx kappa) = nx by apply/minn_idPl.
have m2 : minn (2 * nx) (nsigma nx kappa) = (2 * nx)%N by apply/minn_idPl/nsigma_ge.
have d2 : (2 * nx - nx)%N = nx by rewrite mul2n -addnn addnK.
have Er : shape (rollaxis 2 Sq) = [:: nx; nx] by rewrite /rollaxis HS.
have Gr a a' : get (rollaxis 2 Sq) [:: a; a'] = get Sq [:: a; a'] by rewrite /rollaxis HS.
have B (A : nd F) s e k j : get A (bidx [:: nx; nx] (s :: rcons e k ++ [:: j])) = get A [:: k; j].
  rewrite /bidx /= size_cat /= addn1 size_rcons !subSS subn0 -cats1 -catA /= drop_size_cat //=.
  by rewrite gtn_eqF.
rewrite /nd_sigma_points HSq; cbn [bind]; rewrite {1}/setslice Er; cbn [shape zeros head behead].
rewrite m1 subn0 Hx shared_bcast; have [cn|cn] := eqVneq c nx; last first.
  case: eqP => [c1|_]; last by split=> //; apply/eqP.
  cbn [bind]; rewrite eqseq_cons eqxx /= !cats1 eqseq_rcons eqxx andbT eqseq_rcons eqxx /= eq_sym (negPf cn).
  by split=> //; apply/eqP.
cbn [bind]; rewrite eqxx; cbn [bind].
rewrite {1}/setslice; cbn [shape zeros head behead map1 nd_opp]; rewrite m2 d2 Er shared_bcast cn eqxx; cbn [bind]; rewrite eqxx; cbn [bind].
rewrite /nd_add /map2 Hx cn; cbn [shape].
have -> : bcast (nsigma nx kappa :: rcons b nx ++ [:: nx]) (rcons b nx ++ [:: nx]) = Ok (nsigma nx kappa :: rcons b nx ++ [:: nx]).
  by rewrite -cat1s bcast_suffix.
cbn [bind]; split=> // e k s j se kn jn; rewrite /dev; cbn [get head behead zeros nd_opp map1].
have L1 : (nx < 2 * nx)%N by rewrite mul2n -addnn -{1}(addn0 nx) ltn_add2l; apply: ltn_trans nx1.
split=> Hs.
- by rewrite leqNgt Hs andbT leq0n; cbn [andb negb]; rewrite B Gr.
- by rewrite Hs B Gr.
- by rewrite ltnNge Hs andbF ltnNge (leq_trans (ltnW L1) Hs).
Qed.

(** In the silent case the sigma points of an element have a covariance of
    rank one: [nx / (nx + kappa)] times the square of one row of the root. *)
Theorem C76_shared_rank b Sg idev isig : shape x = rcons b nx ++ [:: nx] -> shape Sq = [:: nx; nx] ->
  nd_sigma_points nx kappa nsq x P = Ok (Sg, idev, isig) ->
  forall e k i j, size e = size b -> (k < nx)%N -> (i < nx)%N -> (j < nx)%N ->
  \sum_(s < nsigma nx kappa) get (nd_weights nx kappa) [:: nat_of_ord s] * dev idev (rcons e k) s i * dev idev (rcons e k) s j
  = nx%:R / (nx%:R + kappa) * (get Sq [:: k; i] * get Sq [:: k; j]).
Proof.
move=> Hx HS E e k i j se kn ni nj; have := C76_shared_covariance Hx HS; rewrite E => -[_ H].
have W s : (s < 2 * nx)%N -> get (nd_weights nx kappa) [:: s] = 2%:R^-1 / (nx%:R + kappa).
  move=> Hs; rewrite /nd_weights /nsigma /=; case: (kappa != 0) => //=.
  by rewrite addn1 addnn -mul2n /= ltn_eqF.
pose T s := get (nd_weights nx kappa) [:: s] * dev idev (rcons e k) s i * dev idev (rcons e k) s j.
rewrite -(big_mkord xpredT T) (big_cat_nat _ _ _ (leq0n (2 * nx)) nsigma_ge) /=.
rewrite [X in _ + X]big_nat_cond [X in _ + X]big1 ?addr0; last first.
  move=> s /andP[/andP[Hs _] _]; have [_ _ H0] := H e k s i se kn ni.
  by rewrite /T H0 // mulr0 mul0r.
rewrite big_nat_cond (eq_bigr (fun=> 2%:R^-1 / (nx%:R + kappa) * (get Sq [:: k; i] * get Sq [:: k; j]))); last first.
  move=> s /andP[/andP[_ Hs] _]; rewrite /T W // -mulrA; congr (_ * _).
  have [Hi1 Hi2 _] := H e k s i se kn ni; have [Hj1 Hj2 _] := H e k s j se kn nj.
  have [Hn|Hn] := ltnP s nx; first by rewrite Hi1 // Hj1.
  by rewrite Hi2 ?Hn // Hj2 ?Hn // mulrNN.
rewrite -big_nat_cond big_const_nat subn0 iter_addr_0 -mulr_natr mulrAC; congr (_ * _).
rewrite natrM mulrC mulrA; congr (_ / _).
by rewrite mulrAC divff ?mul1r // pnatr_eq0.
Qed.

(** One mean with a stack of covariances: creating sigma points raises ValueError. *)
Theorem C76_stacked_covariance b c : shape x = [:: nx] -> shape Sq = rcons b c ++ [:: nx; nx] ->
  nd_sigma_points nx kappa nsq x P = Err ValueError.
Proof.
move=> Hx HS.
have N1 : (nx <= nsigma nx kappa)%N by apply: leq_trans nsigma_ge; rewrite mul2n -addnn leq_addr.
have m1 : minn nx (nsigma nx kappa) = nx by apply/minn_idPl.
have Er : shape (rollaxis 2 Sq) = nx :: rcons b c ++ [:: nx].
  rewrite /rollaxis HS; cbn [shape]; rewrite size_cat /= addnK nth_cat ltnn subnn /= take_size_cat //.
  by congr (_ :: _ ++ _); rewrite -[in drop _ _]cat1s catA drop_size_cat // size_cat addn1.
rewrite /nd_sigma_points HSq; cbn [bind]; rewrite {1}/setslice Er; cbn [shape zeros head behead].
have -> : bcast (minn nx (nsigma nx kappa) - 0 :: shape x)%N (nx :: rcons b c ++ [:: nx]) = let* d := bdim nx c in Ok (nx :: rcons b d ++ [:: nx]).
  rewrite m1 subn0 Hx /bcast cats1 [rev (_ :: rcons _ _)]rev_cons !rev_rcons /= {1}/bdim eqxx /=.
  by case: (bdim nx c) => //= d; rewrite !rev_cons rev_rcons revK cats1.
rewrite /bdim; case: (nx == c) => /=; [|case: (nx == 1%N) => /=; [|case: (c == 1%N) => //=]];
  by rewrite ifN //; apply/eqP => /(congr1 size); rewrite Hx /= size_cat size_rcons addn1.
Qed.
End Edge.

(** Two means and one covariance, in two dimensions: the silent case. *)
Example C76_nonvacuous (F : rcfType) :
  let P : nd F := ND [:: 2; 2]%N (fun i => (nth 0%N i 0%N == nth 0%N i 1%N)%:R) in
  exists2 S, nd_chol (nd_scale (2%:R + 1) P) = Ok S & shape S = [:: 2; 2]%N.
Proof.
move=> P; have HP : rep (pre := [::]) (cs := [:: 2; 2]%N) [::] (nd_scale (2%:R + 1) P) (fun _ i j => ((2%:R + 1) *: 1%:M : 'M[F]_2) i j).
  by apply: rep0I => // -[|//] _ i j /=; rewrite !mxE.
have := nd_chol_sim HP; case: (nd_chol _) => [S|x] /=.
  by case=> m' [_ [HS _]]; exists S.
case=> e _; have [|S ->] // := @chol_is_root F 2 ((2%:R + 1) *: 1%:M).
by apply: pdZ; [rewrite addr_gt0 ?ltr01 ?ltr0n | exact: pd1].
Qed.
