(** No array of the unscented filter is empty: the last axis of the state, of
    the factor of the covariance and of the factor of the output covariance
    has a positive length in every run. *)
From Coq Require Import String Ascii.
From Verif Require Import Py.
From mathcomp Require Import all_ssreflect all_algebra.
From Verif Require Import KalModel NpModel NpOps NdKalModel.
Set Implicit Arguments.
Unset Strict Implicit.
Unset Printing Implicit Defensive.
Import Order.TTheory GRing.Theory Num.Theory.
Local Open Scope ring_scope.

Section Shapes.
Variable F : rcfType.
Local Notation nd := (nd F).
Local Open Scope string_scope.

(** Length of the last axis; of a scalar, 1. *)
Definition lst (A : nd) : nat := last 1%N (shape A).
Definition nonempty (A : nd) : Prop := lst A != 0%N.

Lemma bdim_pos m n d : m != 0%N -> n != 0%N -> bdim m n = Ok d -> d != 0%N.
Proof. by move=> Hm Hn; rewrite /bdim; case: ifP => [_ [<-]|_] //; case: ifP => [_ [<-]|_] //; case: ifP => [_ [<-]|_]. Qed.
Lemma bdim1 m : bdim m 1 = Ok m. Proof. by rewrite /bdim; case: eqP. Qed.
Lemma bdim1l m : bdim 1 m = Ok m. Proof. by rewrite /bdim; case: eqP => [<-|]. Qed.

Lemma bcast_revE s t r : bcast_rev s t = Ok r -> bdim (head 1%N s) (head 1%N t) = Ok (head 1%N r) /\ size r = maxn (size s) (size t).
Proof.
elim: s t r => [|m s IH] [|n t] r /=.
- by move=> [<-].
- by move=> [<-] /=; rewrite bdim1l max0n.
- by move=> [<-] /=; rewrite bdim1 maxn0.
case E: (bdim m n) => [d|//] /=; case E2: (bcast_rev s t) => [r'|//] /= -[<-] /=.
by have [_ ->] := IH _ _ E2; rewrite maxnSS.
Qed.
Lemma head_rev (s : seq nat) : head 1%N (rev s) = last 1%N s.
Proof. by case/lastP: s => [//|s x]; rewrite rev_rcons last_rcons. Qed.
Lemma bcastE s t r : bcast s t = Ok r -> bdim (last 1%N s) (last 1%N t) = Ok (last 1%N r) /\ size r = maxn (size s) (size t).
Proof.
rewrite /bcast; case E: (bcast_rev _ _) => [r'|//] /= -[<-].
have := bcast_revE E; rewrite !head_rev !size_rev => -[H1 H2].
by rewrite -(head_rev (rev r')) revK.
Qed.

Lemma bcast0s s : bcast [::] s = Ok s. Proof. by rewrite /bcast /= revK. Qed.
Lemma bcasts0 s : bcast s [::] = Ok s.
Proof. by rewrite /bcast -{2}[s]revK; case: (rev s). Qed.

Lemma dims_lookup sizes ls dims c : NpModel.mapM (fun c => let* d := dim_of c sizes in Ok (c, d)) ls = Ok dims -> occurs c ls ->
  dim_of c sizes = Ok (lookup c dims).
Proof.
elim: ls dims => [//|x ls IH] dims /=.
case E: (dim_of x sizes) => [d|//] /=; case E2: (NpModel.mapM _ _) => [r|//] /= -[<-] /=.
case Ex: (Ascii.eqb c x) => /=; last by apply: IH.
by move/Ascii.eqb_eq: Ex => -> _; rewrite E.
Qed.

Lemma einsum_shape s ins ro pre ell post ops (A : nd) : parse s = (ins, ro) ->
  match ro with Some o => o | None => implicit_out ins end = Sub pre ell post -> einsum s ops = Ok A ->
  size ins = size ops /\ exists ranks B dims,
  [/\ NpModel.mapM (fun p => ell_rank p.1 p.2) (zip ins ops) = Ok ranks,
      foldr (fun p acc => let* b := acc in bcast (ell_dims p.1 p.2.1 p.2.2) b) (Ok [::]) (zip ins (zip ranks ops)) = Ok B,
      forall c, occurs c (sorted_labels (flatten [seq s_labels x | x <- ins])) ->
        dim_of c (flatten [seq zip (s_labels p.1) (pre_dims p.1 p.2.2 ++ post_dims p.1 p.2.1 p.2.2) | p <- zip ins (zip ranks ops)]) = Ok (lookup c dims) &
      shape A = ([seq lookup c dims | c <- pre] ++ B ++ [seq lookup c dims | c <- post])%SEQ].
Proof.
move=> Ep Eo; rewrite /einsum Ep; cbn [fst snd]; rewrite Eo; case: eqP => [Es|] //=.
case E1: (NpModel.mapM _ _) => [ranks|//] /=; case E2: (foldr _ _ _) => [B|//] /=; case: ifP => // _.
case E3: (NpModel.mapM _ _) => [dims|//] /= -[<-] /=.
by split=> //; exists ranks, B, dims; split=> // c; apply: dims_lookup.
Qed.


Local Notation c_ x := (x%char) (only parsing).

(** The mean of [transform]. *)
Lemma ein_mean (w A o : nd) : einsum "k,k..." [:: w; A] = Ok o -> (0 < size (shape A))%N /\ shape o = behead (shape A).
Proof.
case/(@einsum_shape "k,k..." [:: Sub [:: c_ "k"] false [::]; Sub [:: c_ "k"] true [::]] None [::] true [::] _ _ erefl erefl) => _ [ranks [B [dims []]]].
rewrite /= /ell_rank /=; case: ifP => // _ /=; case: ifP => // Ha /= -[<-] /= E _ HA.
split=> //; rewrite HA cats0.
move: E; rewrite /ell_dims /=; case: (shape A) Ha => [//|d s _] /=.
by rewrite subn1 drop0 /= take_size bcasts0 /= take0 bcast0s => -[<-].
Qed.

Lemma last2 (s : seq nat) : (1 < size s)%N -> exists t m n, s = (t ++ [:: m; n])%SEQ.
Proof.
case/lastP: s => [//|s n]; case/lastP: s => [//|s m] _; exists s, m, n.
by rewrite -!cats1 -catA.
Qed.

(** The covariances of [transform] and [crosscov]. *)
Lemma ein_cov (w A B P : nd) : einsum "k...i,k...j,k" [:: A; B; w] = Ok P ->
  (1 < size (shape B))%N /\ exists s, shape P = (s ++ [:: lst A; lst B])%SEQ.
Proof.
case/(@einsum_shape "k...i,k...j,k" [:: Sub [:: c_ "k"] true [:: c_ "i"]; Sub [:: c_ "k"] true [:: c_ "j"]; Sub [:: c_ "k"] false [::]] None [::] true [:: c_ "i"; c_ "j"] _ _ erefl erefl) => _ [ranks [E [dims []]]].
rewrite [NpModel.mapM _ (zip _ _)]/= /ell_rank /=; case: ifP => // HA /=; case: ifP => // HB /=; case: ifP => // Hw /= -[<-] _ Hd HP.
have Hi := Hd (c_ "i") isT; have Hj := Hd (c_ "j") isT.
move: Hi Hj HP {Hd}; rewrite /pre_dims /post_dims /lst /=.
have [tA [a1 [a2 EA]]] := last2 HA; have [tB [b1 [b2 EB]]] := last2 HB; rewrite EA EB !size_cat /= !addnK.
have Dr : forall (t : seq nat) m n, drop (1 + size t) (t ++ [:: m; n]) = [:: n] by move=> t m n; rewrite -cat_rcons drop_size_cat // size_rcons.
have Tk : forall (t : seq nat) m n, take 1 (t ++ [:: m; n]) = [:: head m t] by move=> [|x t] m n //=; rewrite take0.
rewrite !Dr !Tk; case: (shape w) Hw => [|d [|? ?]] //= _; rewrite !bdim1 /= => -[<-] [<-] ->.
split; first by rewrite ?size_cat ?addn2.
by exists E; rewrite !last_cat.
Qed.

(** The gain. *)
Lemma ein_gain (A B P : nd) : einsum "...ik,...kj" [:: A; B] = Ok P -> exists s t m n j, shape A = (s ++ [:: m; n])%SEQ /\ shape P = (t ++ [:: m; j])%SEQ.
Proof.
case/(@einsum_shape "...ik,...kj" [:: Sub [::] true [:: c_ "i"; c_ "k"]; Sub [::] true [:: c_ "k"; c_ "j"]] None [::] true [:: c_ "i"; c_ "j"] _ _ erefl erefl) => _ [ranks [E [dims []]]].
rewrite [NpModel.mapM _ (zip _ _)]/= /ell_rank /=; case: ifP => // HA /=; case: ifP => // HB /= -[<-] _ Hd HP.
have Hi := Hd (c_ "i") isT.
move: Hi HP {Hd}; rewrite /pre_dims /post_dims /=.
have [tA [a1 [a2 EA]]] := last2 HA; have [tB [b1 [b2 EB]]] := last2 HB; rewrite EA EB !size_cat /= !addnK !add0n.
rewrite !drop_size_cat // !take0 /= bdim1 /= => -[<-] ->.
by exists tA, E, a1, a2, (lookup "j" dims).
Qed.

(** The correction of the mean. *)
Lemma ein_inc (A B P : nd) s m n : shape A = (s ++ [:: m; n])%SEQ -> einsum "...ij,...j" [:: A; B] = Ok P -> lst P = m.
Proof.
move=> EA; case/(@einsum_shape "...ij,...j" [:: Sub [::] true [:: c_ "i"; c_ "j"]; Sub [::] true [:: c_ "j"]] None [::] true [:: c_ "i"] _ _ erefl erefl) => _ [ranks [E [dims []]]].
rewrite [NpModel.mapM _ (zip _ _)]/= /ell_rank /=; case: ifP => // HA /=; case: ifP => // HB /= -[<-] _ Hd HP.
have Hi := Hd (c_ "i") isT.
move: Hi; rewrite /pre_dims /post_dims /= EA !size_cat /= !addnK !add0n !drop_size_cat // !take0 /=.
by case: (drop _ (shape B)) => [|b [|b' t]]; rewrite /= bdim1 => -[Em]; rewrite /lst HP last_cat.
Qed.

(** ** Runs *)

Lemma stacked_shape op (A B : nd) : stacked op A = Ok B -> shape B = shape A /\ exists s n, shape A = (s ++ [:: n; n])%SEQ.
Proof.
rewrite /stacked; set k := (_ - 2)%N; have Es := cat_take_drop k (shape A).
case: (drop k (shape A)) Es => [|m [|n [|? ?]]] // Es; case: eqP => // Emn.
case: (NpModel.mapM _ _) => //= _ [<-] /=; split=> //.
by exists (take k (shape A)), n; rewrite -{1}Es Emn.
Qed.
Lemma chol_shape (Q S : nd) : nd_chol Q = Ok S -> exists s n, shape Q = (s ++ [:: n; n])%SEQ /\ shape S = (s ++ [:: n; n])%SEQ.
Proof.
rewrite /nd_chol; case E: (nd_cholesky Q) => [L|//] /= -[<-] /=.
by have [-> [s [n ->]]] := stacked_shape E; exists s, n; rewrite NpOps.swap_list_cat.
Qed.
Lemma setslice_shape lo hi (A B C : nd) : setslice lo hi A B = Ok C -> shape C = shape A.
Proof. by rewrite /setslice; case: (bcast _ _) => [t|//] /=; case: ifP => // _ [<-]. Qed.
Lemma map2_shape f (A B C : nd) : map2 f A B = Ok C -> bcast (shape A) (shape B) = Ok (shape C).
Proof. by rewrite /map2; case: (bcast _ _) => [s|//] /= -[<-]. Qed.
Lemma map2_lst f (A B C : nd) : map2 f A B = Ok C -> bdim (lst A) (lst B) = Ok (lst C).
Proof. by move/map2_shape/bcastE => [-> _]. Qed.

Variables (nx : nat) (kappa : F).
Hypothesis nx0 : (0 < nx)%N.

Lemma nsigma0 : nsigma nx kappa != 0%N.
Proof. by rewrite /nsigma; case: (nx) nx0. Qed.

(** The factor of the covariance is not empty, nor are the deviations. *)
Lemma sigma_points_pos i Pi Sq idev isigma : nonempty i -> nd_sigma_points nx kappa (@nd_chol F) i Pi = Ok (Sq, idev, isigma) ->
  last 0%N (shape Sq) != 0%N /\ nonempty idev.
Proof.
move=> Ni; rewrite /nd_sigma_points; case Es: (nd_chol _) => [S|//] /=.
have [s [n [_ ES]]] := chol_shape Es.
case E1: (setslice 0 nx _ _) => [d1|//] /=; case E2: (setslice nx _ _ _) => [d2|//] /=; case E3: (nd_add _ _) => [d3|//] /= -[<- <- _].
have Hd2 : shape d2 = nsigma nx kappa :: shape i by rewrite (setslice_shape E2) (setslice_shape E1).
split; last first.
  by move: Ni; rewrite /nonempty /lst Hd2; case: (shape i) => [_|//]; exact: nsigma0.
apply/negP => /eqP; rewrite ES last_cat /= => En; subst n.
move: E1; rewrite /setslice /= ES size_cat /= addnK.
case Eb: (bcast _ _) => [t|//] /=; case: eqP => // Et _.
have [Hb Hs] := bcastE Eb.
have El : last 1%N (nth 0%N (s ++ [:: 0%N; 0%N]) (size s) :: take (size s) (s ++ [:: 0%N; 0%N]) ++ drop (size s).+1 (s ++ [:: 0%N; 0%N]))%SEQ = 0%N.
  by rewrite /= -cat_rcons drop_size_cat ?size_rcons // cat_rcons last_cat.
have Sz : size (nth 0%N (s ++ [:: 0%N; 0%N]) (size s) :: take (size s) (s ++ [:: 0%N; 0%N]) ++ drop (size s).+1 (s ++ [:: 0%N; 0%N]))%SEQ = (size s).+2.
  by rewrite /= take_size_cat // -cat_rcons drop_size_cat ?size_rcons // size_cat /= addn1.
rewrite /nonempty /lst in Ni; move: Hb; rewrite El Et.
case: (shape i) Ni Hs Et => [|d r] Ni.
  by rewrite Sz => Hs Et; move: Hs; rewrite Et /= (maxn_idPr _).
move=> _ _; rewrite /= in Ni *.
rewrite /bdim; case: ifP => [/eqP E|_]; first by rewrite E in Ni.
by case: ifP => [/eqP -> []|_] //.
Qed.

Lemma transform_pos i Pi f u : nonempty i -> nd_transform nx kappa (@nd_chol F) i Pi f = Ok u ->
  [/\ last 0%N (shape (nu_S u)) != 0%N, nonempty (nu_idev u) &
      exists o, [/\ f (nu_isigma u) = Ok o, lst (nu_odev u) = lst o, lst (nu_o u) = last 1%N (behead (shape o)) &
                    exists s, shape (nu_Po u) = (s ++ [:: lst o; lst o])%SEQ]].
Proof.
move=> Ni; rewrite /nd_transform; case Es: (nd_sigma_points _ _ _ _ _) => [[[Sq idev] isigma]|//] /=.
have [H1 H2] := sigma_points_pos Ni Es.
case Ef: (f isigma) => [o|//] /=; case Eo: (einsum _ _) => [m|//] /=; case Ed: (nd_sub _ _) => [d|//] /=.
case Ec: (einsum _ _) => [P|//] /= -[<-] /=; split=> //; exists o; split=> //.
- have [Hs Hm] := ein_mean Eo; have := map2_lst Ed; rewrite /lst Hm.
  case: (shape o) Hs => [//|a [|b s]] _ /=; first by rewrite bdim1 => -[].
  by rewrite /bdim eqxx => -[].
- by have [_ Hm] := ein_mean Eo; rewrite /lst Hm.
- have [_ [s HP]] := ein_cov Ec; exists s; rewrite HP.
  have [Hs Hm] := ein_mean Eo; have := map2_lst Ed; rewrite /lst Hm.
  case: (shape o) Hs => [//|a [|b t]] _ /=; first by rewrite bdim1 => -[<-].
  by rewrite /bdim eqxx => -[<-].
Qed.

Lemma last_behead (s : seq nat) : last 1%N s != 0%N -> last 1%N (behead s) != 0%N.
Proof. by case: s => [|a [|b s]]. Qed.

Lemma predict_pos md s u s' : (forall k X, nonempty (nm_f md k X)) -> nonempty (ns_x s) ->
  nd_ukf_predict nx md kappa (@nd_chol F) s = Ok (u, s') -> last 0%N (shape (nu_S u)) != 0%N /\ nonempty (ns_x s').
Proof.
move=> Hf Nx; rewrite /nd_ukf_predict; case Et: (nd_transform _ _ _ _ _ _) => [v|//] /=; case: (nd_add _ _) => [P|//] /= -[<- <-].
have [H1 _ [o [[<-] _ Ho _]]] := transform_pos Nx Et.
by split=> //; rewrite /nonempty /= Ho; apply: last_behead; apply: Hf.
Qed.

Lemma nonzero_pos (m : seq bool) : has id m -> size (nonzero m) != 0%N.
Proof.
move=> H; rewrite /nonzero size_filter -lt0n -has_count; apply/hasP.
exists (find id m); first by rewrite mem_iota /= add0n -has_find.
exact: (@nth_find _ false id m H).
Qed.

Lemma any_active (y : nmeas F) : has id (nd_active y) = ~~ all id (nm_mask y).
Proof. by rewrite /nd_active has_map -has_predC; apply: eq_has. Qed.

Lemma correct_pos md s y u c s' : size (shape (nm_R md)) = 2%N -> nonempty (ns_x s) ->
  nd_ukf_correct nx md kappa (@nd_chol F) s y = Ok (Some (u, c), s') ->
  [/\ last 0%N (shape (nu_S u)) != 0%N, (forall PyC, nk_PyC c = Some PyC -> last 0%N (shape PyC) != 0%N) & nonempty (ns_x s')].
Proof.
move=> HR Nx; rewrite /nd_ukf_correct; case: ifP => // Hm.
have Hp : size (nonzero (nd_active y)) != 0%N by apply: nonzero_pos; rewrite any_active Hm.
set act := nd_active y in Hp *.
case: (getmask act (nm_data y)) => [yc|//] /=; case ER: (getmask_ix _ _) => [R|//] /=.
case Et: (nd_transform _ _ _ _ _ _) => [v|//] /=; case EX: (nd_crosscov _ _ _) => [Pxh|//] /=; case EP: (nd_add _ _) => [Py|//] /=.
case EC: (nd_chol _) => [PyC|//] /=; case: (nd_inv _) => [PyCI|//] /=; case: (einsum _ [:: PyCI; PyCI]) => [PyI|//] /=.
case: (nd_sub _ _) => [e|//] /=; case EK: (einsum _ [:: Pxh; PyI]) => [K|//] /=; case Es: (nd_corrected _ _ _ _) => [s1|//] /= -[<- <- <-] /=.
have [H1 H2 [o [Eo Hd _ [sP HPo]]]] := transform_pos Nx Et.
have Ho : lst o = size (nonzero act).
  by move: Eo; rewrite /getmask; case: ifP => // _ [<-]; rewrite /lst /= last_rcons.
have HRs : lst R = size (nonzero act).
  move: ER; rewrite /getmask_ix; case: ifP => // _ [<-]; rewrite /lst /=.
  by move: HR; case: (shape (nm_R md)) => [|a [|b [|? ?]]].
split=> //.
  move=> _ [<-]; have [t [n [Eq ES]]] := chol_shape EC; rewrite ES last_cat /=.
  have := map2_lst EP; rewrite {1}/lst HPo last_cat /= Ho HRs /bdim eqxx /lst Eq last_cat /= => -[<-] //.
move: Es; rewrite /nd_corrected; case Ei: (einsum _ [:: K; e]) => [dx|//] /=; case Ex: (nd_add _ _) => [x|//] /=.
case: (einsum _ _) => [dP|//] /=; case: (nd_sub _ _) => [P|//] /= -[<-] /=.
have [t1 [t2 [m [n [j [HX HK]]]]]] := ein_gain EK.
have Hdx := ein_inc HK Ei.
have [_ [t3 HX2]] := ein_cov EX.
apply: (bdim_pos _ _ (map2_lst Ex)) => //.
rewrite Hdx; suff -> : m = lst (nu_idev v) by [].
move: HX2; rewrite HX => E; have := congr1 (fun z => nth 0%N (rev z) 1) E; rewrite !rev_cat /=; rewrite /rev /=; by [].
Qed.
End Shapes.
