(** C90: Components of a measurement can be processed one after the other.
    For outputs that are affine in the state, with measurement noises that are
    not correlated between two sets of components, correcting with both sets
    is correcting with the first and then with the second, the others being
    masked; the log-likelihood of the whole is the sum of those of the
    parts. *)
From Verif Require Import Py.
From mathcomp Require Import all_ssreflect all_algebra.
From Verif Require Import PsdLemmas KalModel CholLemmas GainLemmas KalLemmas UtLemmas SeqLemmas.
Set Implicit Arguments.
Unset Strict Implicit.
Unset Printing Implicit Defensive.
Import Order.TTheory GRing.Theory Num.Theory.
Local Open Scope ring_scope.

Section Seq.
Variable F : rcfType.
Variables nx ny : nat.
Implicit Types (s : fstate F nx) (y : meas F ny) (A B : {set 'I_ny}).
Variable md : model F nx ny.
Variables (C : nat -> 'M[F]_(nx, ny)) (d : nat -> 'rV[F]_ny).
Hypothesis Hh : forall k x, md_h md k x = x *m C k + d k.
Hypothesis Hdh : forall k x, md_dh_dx md k x = C k.
Hypothesis PR : pd (md_R md).

(** The measurement with everything outside [A] masked. *)
Definition keep A y : meas F ny := Meas (y_data y) (y_mask y :|: ~: A).
Lemma active_keep A y : active (keep A y) = active y :&: A.
Proof. by rewrite /active /= setCU setCK. Qed.

(** Squared innovation and determinant of its covariance. *)
Definition quad (o : option (corr_data F nx ny)) : F := if o is Some c then (cd_e c *m cd_PyI c *m (cd_e c)^T) 0 0 else 0.
Definition detq (o : option (corr_data F nx ny)) : F := if o is Some c then \det (cd_Py c) else 1.

Notation W y := (wt (md_R md) (active y)).
Definition resid s y : 'rV[F]_ny := y_data y - (fs_x s *m C (fs_k s) + d (fs_k s)).

(** What [s'] and [o] are after a correction of [s] with [y]. *)
Record info s y s' (o : option (corr_data F nx ny)) : Prop := Info {
  in_k : fs_k s' = fs_k s;
  in_pd : pd (fs_P s');
  in_P : invmx (fs_P s') = invmx (fs_P s) + C (fs_k s) *m W y *m (C (fs_k s))^T;
  in_x : fs_x s' = fs_x s + resid s y *m W y *m (C (fs_k s))^T *m fs_P s';
  in_q : forall e, qf (invmx (fs_P s)) e + qf (W y) (resid s y - e *m C (fs_k s)) =
                   qf (invmx (fs_P s')) (e - (fs_x s' - fs_x s)) + quad o;
  in_d : detq o * \det (fs_P s') = \det (fs_P s) * \det (pick2 (active y) (md_R md)) }.

Lemma info_ekf s y : pd (fs_P s) -> exists s' o, ekf_correct md s y = Ok (s', o) /\ info s y s' o.
Proof.
move=> PP; have [A0|nA] := eqVneq (active y) set0.
  exists s, None; rewrite ekf_correct0 //; split=> //.
  have W0 : W y = 0.
    have [E _ _] := wt_proj PR (active y); by rewrite -E A0 proj0 mul0mx.
  split=> //; rewrite ?W0.
  - by rewrite mulmx0 mul0mx addr0.
  - by rewrite mulmx0 !mul0mx addr0.
  - by move=> e; rewrite subrr subr0 /quad qf0m.
  rewrite /detq mul1r A0.
  have -> : \det (pick2 set0 (md_R md)) = 1.
    move: (pick2 _ _); rewrite cards0 => M; exact: det_mx00.
  by rewrite mulr1.
have PRA := pd_pick2 (active y) PR; have UP := pd_unit PP.
eexists; eexists; split; first by apply: ekf_correctE => //; apply: pd_unit; apply: inncov_pd => //; apply: pd_psd.
rewrite Hdh Hh; set H := pick _ (C _); set R := pick2 _ _.
have eE : pick (active y) (y_data y) - pick (active y) (fs_x s *m C (fs_k s) + d (fs_k s)) = pick (active y) (resid s y).
  by rewrite !pick_sel /resid mulmxBl.
have HW : H *m invmx R *m H^T = C (fs_k s) *m W y *m (C (fs_k s))^T.
  by rewrite /H pick_sel /wt trmx_mul !mulmxA.
have SP := psd_sym (post_psd H (pd_psd PP) PRA).
split=> //.
- exact: (post_pd _ (pd_psd PP) PRA UP).
- by rewrite /= (invmx_post _ (pd_psd PP) PRA UP) HW.
- rewrite /= eE (gain_post H (pd_psd PP) PRA); congr (_ + _).
  rewrite !trmx_mul SP (invmx_sym (pd_sym PRA)) -/R /wt !mulmxA !pick_sel.
  by rewrite /H pick_sel trmx_mul !mulmxA.
- move=> e; rewrite qf_wt -/R; have := complete_square H (pd_psd PP) PRA UP e (pick (active y) (resid s y)).
  rewrite -/R eE /= addrAC subrr add0r.
  have -> : pick (active y) (resid s y) - e *m H = pick (active y) (resid s y - e *m C (fs_k s)).
    by rewrite !pick_sel (mulmxBl (resid s y) (e *m C (fs_k s)) (sel F (active y))) /H pick_sel mulmxA.
  by [].
by rewrite /= det_inncov.
Qed.

Section Two.
Variables A B : {set 'I_ny}.
Hypothesis AB : A :&: B = set0.
Hypothesis R0 : forall i j, i \in A -> j \in B -> md_R md i j = 0.
Variable y : meas F ny.
Notation yA := (keep A y).
Notation yB := (keep B y).
Notation yAB := (keep (A :|: B) y).

Let I0 : active yA :&: active yB = set0.
Proof. by rewrite !active_keep setIACA AB setI0. Qed.
Let I1 : active yAB = active yA :|: active yB. Proof. by rewrite !active_keep setIUr. Qed.
Let I2 i j : i \in active yA -> j \in active yB -> md_R md i j = 0.
Proof. by rewrite !active_keep !in_setI => /andP [_ Ai] /andP [_ Bj]; apply: R0. Qed.
Let WE : W yAB = W yA + W yB. Proof. by rewrite I1 wtU. Qed.

Lemma info_two s s1 s2 s3 oA oB o : pd (fs_P s) -> info s yA s1 oA -> info s1 yB s2 oB -> info s yAB s3 o ->
  [/\ s3 = s2, quad o = quad oA + quad oB & detq o = detq oA * detq oB].
Proof.
move=> PP [k1 p1 P1 x1 q1 d1] [k2 p2 P2 x2 q2 d2] [k3 p3 P3 x3 q3 d3].
rewrite k1 in k2 P2 x2 q2.
have EP : fs_P s3 = fs_P s2.
  apply: (can_inj (@invmxK _ _)); rewrite P3 P2 P1 WE mulmxDr mulmxDl addrA //.
set c := C (fs_k s) in P1 x1 q1 P2 x2 q2 P3 x3 q3 *.
set v := resid s yAB in x3 q3 *.
have vA : resid s yA = v by [].
have vB : resid s1 yB = v - (fs_x s1 - fs_x s) *m c.
  rewrite /v /resid /= k1 -/c mulmxBl -[RHS]addrA -opprD; congr (_ - _).
  by rewrite [RHS]addrC addrA subrK.
clearbody v; have U1 := pd_unit p1; have U2 := pd_unit p2.
have EX : fs_x s3 = fs_x s2.
  have K : (fs_x s1 - fs_x s) *m (1%:M - c *m W yB *m c^T *m fs_P s2) = v *m W yA *m c^T *m fs_P s2.
    have -> : 1%:M - c *m W yB *m c^T *m fs_P s2 = invmx (fs_P s1) *m fs_P s2.
      by rewrite -(mulVmx U2) P2 -mulmxBl addrK.
    by rewrite x1 addrAC subrr add0r vA !mulmxA mulmxK.
  have xD : fs_x s1 = fs_x s + (fs_x s1 - fs_x s) by rewrite addrC subrK.
  rewrite x3 x2 vB WE EP [X in _ = X + _]xD; move: K.
  move: (fs_x s1 - fs_x s) (W yA) (W yB) => D wA wB K.
  have -> : v *m (wA + wB) *m c^T *m fs_P s2 = v *m wA *m c^T *m fs_P s2 + v *m wB *m c^T *m fs_P s2 by rewrite mulmxDr !mulmxDl.
  rewrite -K mulmxBr mulmx1 [(v - D *m c) *m wB]mulmxBl [in RHS]mulmxBl [in RHS]mulmxBl !mulmxA !addrA.
  by rewrite [RHS]addrAC.
have E3 : s3 = s2 by move: EP EX k3 k2; case: (s3) => ? ? ?; case: (s2) => ? ? ? /= -> -> -> ->.
split=> //.
  have := q3 (fs_x s2 - fs_x s); rewrite EX subrr qf0 add0r => <-.
  have := q2 (fs_x s2 - fs_x s1); rewrite subrr qf0 add0r => E2.
  have := q1 (fs_x s2 - fs_x s); rewrite -E2 vA vB.
  have -> : fs_x s2 - fs_x s - (fs_x s1 - fs_x s) = fs_x s2 - fs_x s1 by rewrite opprB addrA subrK.
  have -> : v - (fs_x s1 - fs_x s) *m c - (fs_x s2 - fs_x s1) *m c = v - (fs_x s2 - fs_x s) *m c.
    by rewrite -addrA -opprD -mulmxDl; congr (_ - _ *m _); rewrite addrC addrA subrK.
  by move=> E; rewrite WE qfD addrA E -addrA addrCA.
have D1 : \det (fs_P s1) != 0 by rewrite -unitfE -unitmxE.
have D2 : \det (fs_P s2) != 0 by rewrite -unitfE -unitmxE.
apply: (mulIf D2); rewrite -{1}E3 d3 I1 (detU PR I0 I2) mulrA -d1 -[RHS]mulrA d2.
by rewrite mulrA mulrAC.
Qed.

(** The extended filter. *)
Theorem C90_ekf s : pd (fs_P s) ->
  exists s1 oA s2 oB o, [/\ ekf_correct md s yA = Ok (s1, oA), ekf_correct md s1 yB = Ok (s2, oB) & ekf_correct md s yAB = Ok (s2, o)] /\
    pd (fs_P s2).
Proof.
move=> PP; have [s1 [oA [E1 H1]]] := info_ekf yA PP; have [s2 [oB [E2 H2]]] := info_ekf yB (in_pd H1).
have [s3 [o [E3 H3]]] := info_ekf yAB PP; have [E _ _] := info_two PP H1 H2 H3.
by exists s1, oA, s2, oB, o; rewrite -E; split; [split; rewrite // E|rewrite E; apply: in_pd H2].
Qed.

(** The unscented filter, with the log-likelihood. *)
Section Ukf.
Variables (kc : F) (rc : 'M[F]_nx -> res 'M[F]_nx).
Hypothesis Hk : 0 < nx%:R + kc.
Hypothesis Hs : sound_root rc.
Hypothesis Hr : is_root rc.

Let md0 : model F nx ny := Model (fun _ x => x) (fun _ _ => 1%:M) (md_Q md) (md_h md) (md_dh_dx md) (md_R md).
Let aff : affine md0 (fun=> 1%:M) (fun=> 0) C d.
Proof. by split=> // k x; rewrite /= mulmx1 addr0. Qed.

Lemma info_ukf s z : pd (fs_P s) -> exists s' o, ukf_correct md kc rc s z = Ok (s', o) /\ info s z s' o.
Proof.
move=> PP; have [s' [o [E1 E2]]] := affine_correct_pd z aff Hk Hs Hr PP PR.
have [s2 [o2 [E3 H]]] := info_ekf z PP.
have E4 : Ok (s2, o2) = Ok (s', omap (@strip F nx ny) o) by rewrite -E3 -E2.
move: E4 H => [-> ->] [H1 H2 H3 H4 H5 H6]; exists s', o; split=> //; split=> //.
  by move=> e; rewrite H5; case: (o).
by rewrite -H6; case: (o).
Qed.

Variable log : F -> F.
Hypothesis logM : forall a b, 0 < a -> 0 < b -> log (a * b) = log a + log b.

Lemma log1 : log 1 = 0.
Proof. by apply: (addrI (log 1)); rewrite -logM ?ltr01 // mulr1 addr0. Qed.
Lemma log_prod n (f : 'I_n -> F) : (forall i, 0 < f i) -> \sum_i log (f i) = log (\prod_i f i) /\ 0 < \prod_i f i.
Proof.
elim: n f => [|n IH] f Hf; first by rewrite !big_ord0 log1 ltr01.
rewrite !big_ord_recl; have [|-> P0] := IH (fun i => f (lift ord0 i)) => //.
by rewrite logM // mulr_gt0.
Qed.
Lemma lik_ukf s z s' o L : ukf_correct md kc rc s z = Ok (s', o) ->
  update_likelihood log L o = Ok (L - 2%:R^-1 * quad o - log (Num.sqrt (detq o))) /\ 0 < detq o.
Proof.
have [A0|nA] := eqVneq (active z) set0.
  by rewrite ukf_correct0 // => -[_ <-]; rewrite /= sqrtr1 log1 mulr0 !subr0 ltr01.
move=> E; have [u [PyC [Eu Ec _ _ ->]]] := ukf_correct_ok E nA.
set Py := u_Po u + _ in Ec *.
have SPy : Py^T = Py by rewrite /Py linearD /= (u_Po_sym Eu) sym_pick2 // (pd_sym PR).
have [U D S] := proj1 (chol_spec PyC SPy) Ec.
have [LP P0] := log_prod D.
have DE : \det Py = (\prod_i PyC i i) ^+ 2 by rewrite -S det_mulmx det_tr det_upp // expr2.
by rewrite /= DE sqrtr_sqr gtr0_norm // LP exprn_gt0.
Qed.

Theorem C90_ukf s L : pd (fs_P s) ->
  exists s1 oA s2 oB o L1 L2, [/\ ukf_correct md kc rc s yA = Ok (s1, oA), ukf_correct md kc rc s1 yB = Ok (s2, oB) & ukf_correct md kc rc s yAB = Ok (s2, o)] /\
    [/\ update_likelihood log L oA = Ok L1, update_likelihood log L1 oB = Ok L2, update_likelihood log L o = Ok L2 & pd (fs_P s2)].
Proof.
move=> PP; have [s1 [oA [E1 H1]]] := info_ukf yA PP; have [s2 [oB [E2 H2]]] := info_ukf yB (in_pd H1).
have [s3 [o [E3 H3]]] := info_ukf yAB PP; have [E Q D] := info_two PP H1 H2 H3.
have [LA DA] := lik_ukf L E1; have [LB DB] := lik_ukf (L - 2%:R^-1 * quad oA - log (Num.sqrt (detq oA))) E2; have [LO _] := lik_ukf L E3.
exists s1, oA, s2, oB, o; eexists; eexists; split; first by rewrite -{2}E.
split; [exact: LA|exact: LB| |exact: in_pd H2].
rewrite LO Q D; congr Ok; rewrite sqrtrM ?ltW // logM ?sqrtr_gt0 // mulrDr !opprD !addrA; congr (_ - _).
by rewrite addrAC.
Qed.
End Ukf.
End Two.

(** One component at a time, in any order. *)
Section Fold.
Hypothesis Rd : forall i j : 'I_ny, i != j -> md_R md i j = 0.
Variable y : meas F ny.

Fixpoint ekf_each s (l : seq 'I_ny) : res (fstate F nx) :=
  if l is i :: l' then let* c := ekf_correct md s (keep [set i] y) in ekf_each c.1 l' else Ok s.
Fixpoint ukf_each kc rc (log : F -> F) s L (l : seq 'I_ny) : res (fstate F nx * F) :=
  if l is i :: l' then
    let* c := ukf_correct md kc rc s (keep [set i] y) in
    let* L1 := update_likelihood log L c.2 in ukf_each kc rc log c.1 L1 l'
  else Ok (s, L).

Lemma each_split (i : 'I_ny) (l : seq 'I_ny) : uniq (i :: l) ->
  [/\ [set i] :&: [set j in l] = set0, [set i] :|: [set j in l] = [set j in i :: l] & forall a b, a \in [set i] -> b \in [set j in l] -> md_R md a b = 0].
Proof.
move=> /= /andP [nl _]; split.
- by apply/setP => j; rewrite !inE; case: eqP => [->|//]; rewrite (negbTE nl).
- by apply/setP => j; rewrite !inE.
by move=> a b; rewrite !inE => /eqP -> Hb; apply: Rd; apply: contraNneq nl => ->.
Qed.
Lemma keep_all (l : seq 'I_ny) : (forall i : 'I_ny, i \in l) -> keep [set j in l] y = y.
Proof.
move=> H; case: y => dt m; rewrite /keep /=; congr Meas; apply/setP => j; rewrite !inE H /=.
by rewrite orbF.
Qed.
Lemma keep_none : active (keep [set j in ([::] : seq 'I_ny)] y) = set0.
Proof. by rewrite active_keep; apply/setP => j; rewrite !inE andbF. Qed.

Lemma ekf_each_keep (l : seq 'I_ny) s : uniq l -> pd (fs_P s) -> ekf_each s l = let* c := ekf_correct md s (keep [set j in l] y) in Ok c.1.
Proof.
elim: l s => [|i l IH] s; first by move=> _ _; rewrite ekf_correct0 // keep_none.
move=> U PP; have [D1 <- D3] := each_split U; move: U => /= /andP [_ Ul].
have [s1 [oA [s2 [oB [o [[E1 E2 E3] _]]]]]] := C90_ekf D1 D3 y PP.
rewrite E1 E3 [LHS]/= IH //; first by rewrite E2.
have [s1' [o' [E1' H1']]] := info_ekf (keep [set i] y) PP.
by move: E1'; rewrite E1 => -[-> _]; apply: in_pd H1'.
Qed.
Theorem C90_ekf_each (l : seq 'I_ny) s : uniq l -> (forall i : 'I_ny, i \in l) -> pd (fs_P s) -> ekf_each s l = let* c := ekf_correct md s y in Ok c.1.
Proof. by move=> U H PP; rewrite ekf_each_keep // keep_all. Qed.

Section UkfEach.
Variables (kc : F) (rc : 'M[F]_nx -> res 'M[F]_nx).
Hypothesis Hk : 0 < nx%:R + kc.
Hypothesis Hs : sound_root rc.
Hypothesis Hr : is_root rc.
Variable log : F -> F.
Hypothesis logM : forall a b, 0 < a -> 0 < b -> log (a * b) = log a + log b.
Lemma ukf_each_keep (l : seq 'I_ny) s L : uniq l -> pd (fs_P s) -> ukf_each kc rc log s L l =
  let* c := ukf_correct md kc rc s (keep [set j in l] y) in let* L1 := update_likelihood log L c.2 in Ok (c.1, L1).
Proof.
elim: l s L => [|i l IH] s L; first by move=> _ _; rewrite ukf_correct0 // keep_none.
move=> U PP; have [D1 <- D3] := each_split U; move: U => /= /andP [_ Ul].
have [s1 [oA [s2 [oB [o [L1 [L2 [[E1 E2 E3] [F1 F2 F3 _]]]]]]]]] := C90_ukf D1 D3 y Hk Hs Hr logM L PP.
rewrite E1 E3 /= F1 F3 /= IH //; first by rewrite E2 /= F2.
have [s1' [o' [E1' H1']]] := info_ukf Hk Hs Hr (keep [set i] y) PP.
by move: E1'; rewrite E1 => -[-> _]; apply: in_pd H1'.
Qed.
Theorem C90_ukf_each (l : seq 'I_ny) s L : uniq l -> (forall i : 'I_ny, i \in l) -> pd (fs_P s) -> ukf_each kc rc log s L l =
  let* c := ukf_correct md kc rc s y in let* L1 := update_likelihood log L c.2 in Ok (c.1, L1).
Proof. by move=> U H PP; rewrite ukf_each_keep // keep_all. Qed.
End UkfEach.
End Fold.
End Seq.
