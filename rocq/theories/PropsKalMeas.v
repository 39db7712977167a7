(** C80: how the filters treat measurements of the wrong length, and what the
    indexing operations they use accept. *)
From Coq Require Import String Ascii.
From Verif Require Import Py.
From mathcomp Require Import all_ssreflect all_algebra.
From Verif Require Import KalModel NpModel NpLemmas NdKalModel NpOps.
Set Implicit Arguments.
Unset Strict Implicit.
Unset Printing Implicit Defensive.
Import Order.TTheory GRing.Theory Num.Theory.
Local Open Scope ring_scope.

Section Meas.
Variable F : rcfType.
Notation nd := (nd F).

(** ** Indexing *)

(** [A[..., m]] with a boolean array needs a last axis as long as [m]. *)
Theorem C80_mask (m : seq bool) (A : nd) :
  if (0 < size (shape A))%N && (last 0%N (shape A) == size m) then exists C, getmask m A = Ok C
  else getmask m A = Err IndexError.
Proof. by case E: (_ && _); rewrite /getmask E //; eexists. Qed.

(** [np.ix_(m, m)] only needs the true elements of [m] to lie on the two axes
    it indexes: the first two, or with an ellipsis the last two. *)
Lemma ix_okP m d : reflect (forall i, nth false m i -> (i < d)%N) (ix_ok m d).
Proof.
apply: (iffP allP) => H i.
  move=> Hi; apply: H; rewrite mem_filter Hi mem_iota add0n /=.
  by case: ltnP => // L; rewrite nth_default in Hi.
by rewrite mem_filter => /andP [Hi _]; apply: H.
Qed.

Theorem C80_ix (m : seq bool) (A : nd) (d1 d2 : nat) (r : seq nat) :
  (shape A = d1 :: d2 :: r ->
   ((exists C, getmask_ix m A = Ok C) <-> forall i, nth false m i -> (i < d1)%N /\ (i < d2)%N)) /\
  (shape A = r ++ [:: d1; d2] ->
   ((exists C, getmask2 m A = Ok C) <-> forall i, nth false m i -> (i < d1)%N /\ (i < d2)%N)) /\
  (forall er, getmask_ix m A = Err er \/ getmask2 m A = Err er -> er = IndexError) /\
  ((size (shape A) < 2)%N -> getmask_ix m A = Err IndexError /\ getmask2 m A = Err IndexError).
Proof.
have W : ix_ok m d1 && (ix_ok m d2 && true) <-> forall i, nth false m i -> (i < d1)%N /\ (i < d2)%N.
  rewrite andbT; split=> [/andP [/ix_okP H1 /ix_okP H2] i Hi|H]; first by split; [apply: H1|apply: H2].
  by apply/andP; split; apply/ix_okP => i /H [].
split=> [HA|]; last split=> [HA|].
- rewrite /getmask_ix HA /= ?take0; rewrite -W; case: (_ && _).
  + by split=> // _; eexists.
  + by split=> // -[].
- rewrite /getmask2 HA size_cat addnK addn2 drop_size_cat //= -W; case: (_ && _).
  + by split=> // _; eexists.
  + by split=> // -[].
split; first by rewrite /getmask_ix /getmask2 => er []; case: ifP => // _ [].
by move=> H; rewrite /getmask_ix /getmask2 ltnNge -ltnS H.
Qed.

(** ** Measurements *)

(** A sample that is masked everywhere is ignored, whatever its length. *)
Theorem C80_all_masked nx (md : nmodel F) kappa nsq s y : (forall b, b \in nm_mask y -> b = true) ->
  nd_ekf_correct md s y = Ok (None, s) /\ nd_ukf_correct nx md kappa nsq s y = Ok (None, s).
Proof. by move=> H; rewrite /nd_ekf_correct /nd_ukf_correct; have -> : all id (nm_mask y) by apply/allP => b /H ->. Qed.

(** Any other sample, the length of which is not that of the outputs the model
    computes, is rejected with IndexError: by the extended filter always, ... *)
Theorem C80_ekf_length (md : nmodel F) s y :
  (exists2 b, b \in nm_mask y & b = false) ->
  last 0%N (shape (nm_h md (ns_k s) (ns_x s))) <> size (nm_mask y) ->
  nd_ekf_correct md s y = Err IndexError.
Proof.
move=> [b Hb bF] Hl; rewrite /nd_ekf_correct.
have -> : all id (nm_mask y) = false by apply/negP => /allP /(_ b Hb); rewrite bF.
have Ha : size (nd_active y) = size (nm_mask y) by rewrite size_map.
have := C80_mask (nd_active y) (nm_data y); case: ifP => _; [case=> C1 -> | by move=> ->]; cbn [bind].
case E: (getmask_ix _ _) => [R|er]; last first.
  by have [_ [_ [H _]]] := C80_ix (nd_active y) (nm_R md) 0 0 [::]; rewrite (H er) //; left.
have := C80_mask (nd_active y) (nm_h md (ns_k s) (ns_x s)); rewrite Ha; case: ifP => [/andP [_ /eqP //]|_ ->] //.
Qed.

(** ... and by the unscented filter as soon as the sigma points can be
    computed. *)
Theorem C80_ukf_length nx (md : nmodel F) kappa nsq s y :
  (exists2 b, b \in nm_mask y & b = false) ->
  match nd_sigma_points nx kappa nsq (ns_x s) (ns_P s) with
  | Ok (_, _, sigma) => last 0%N (shape (nm_h md (ns_k s) sigma)) <> size (nm_mask y) -> nd_ukf_correct nx md kappa nsq s y = Err IndexError
  | Err er => nd_ukf_correct nx md kappa nsq s y = Err IndexError \/ nd_ukf_correct nx md kappa nsq s y = Err er
  end.
Proof.
move=> [b Hb bF]; rewrite /nd_ukf_correct.
have -> : all id (nm_mask y) = false by apply/negP => /allP /(_ b Hb); rewrite bF.
have Ha : size (nd_active y) = size (nm_mask y) by rewrite size_map.
have := C80_mask (nd_active y) (nm_data y); case: ifP => _; [case=> C1 -> | move=> ->]; cbn [bind]; rewrite /nd_transform; last first.
  by case: (nd_sigma_points _ _ _ _ _) => [[[? ?] ?]|er]; [|left].
case E: (getmask_ix _ _) => [R|er]; last first.
  have [_ [_ [H _]]] := C80_ix (nd_active y) (nm_R md) 0 0 [::]; rewrite (H er); last by left.
  by case: (nd_sigma_points _ _ _ _ _) => [[[? ?] ?]|er']; [|left].
cbn [bind]; case: (nd_sigma_points _ _ _ _ _) => [[[? ?] sg]|er']; last by right.
move=> Hl; cbn [bind].
have := C80_mask (nd_active y) (nm_h md (ns_k s) sg); rewrite Ha; case: ifP => [/andP [_ /eqP //]|_ ->] //.
Qed.

(** An error in [correct] ends [filter], [smooth] and [pem_merit]: at the
    first sample, or after any number of samples that were processed. *)
Theorem C80_propagates (flt : nfilter F) log s y ys er : n_correct flt s y = Err er ->
  [/\ nd_filter flt s (y :: ys) = Err er, nd_smooth flt s (y :: ys) = Err er & forall L, nd_pem_merit flt log s L (y :: ys) = Err er].
Proof. by move=> E; split; rewrite /= E. Qed.

(** Filtering data in two batches: the second starts from the prediction of
    the state the first one leaves. *)
Theorem C80_filter_cat (flt : nfilter F) : forall ys zs s, ys <> [::] -> zs <> [::] ->
  nd_filter flt s (ys ++ zs) =
  (let* r1 := nd_filter flt s ys in let* p := n_predict flt r1.2 in let* r2 := nd_filter flt p.1 zs in Ok (r1.1 ++ r2.1, r2.2)).
Proof.
elim=> [//|y ys IH] zs s _ zs0; case: ys IH => [|y1 ys] IH.
  rewrite cat1s; case: zs zs0 {IH} => [//|z zs] _.
  rewrite [nd_filter flt s (_ :: _ :: _)]/= [nd_filter flt s [:: y]]/=.
  by case: (n_correct flt s y) => [c|//]; cbn [bind snd fst]; case: (n_predict flt c.1) => [p|//]; cbn [bind].
have -> : nd_filter flt s (y :: y1 :: ys) = let* c := n_correct flt s y in let* p := n_predict flt c.1 in let* r := nd_filter flt p.1 (y1 :: ys) in
    Ok ((ns_x c.1, ns_P c.1) :: r.1, r.2) by [].
have -> : nd_filter flt s ((y :: y1 :: ys) ++ zs) = let* c := n_correct flt s y in let* p := n_predict flt c.1 in let* r := nd_filter flt p.1 ((y1 :: ys) ++ zs) in
    Ok ((ns_x c.1, ns_P c.1) :: r.1, r.2) by [].
case: (n_correct flt s y) => [c|//]; cbn [bind]; case: (n_predict flt c.1) => [p|//]; cbn [bind].
rewrite IH //; case: (nd_filter _ _ (y1 :: ys)) => [r1|//]; cbn [bind snd fst].
case: (n_predict flt r1.2) => [p1|//]; cbn [bind]; by case: (nd_filter _ _ zs) => [r2|].
Qed.

Theorem C80_propagates_later (flt : nfilter F) er ys y zs s es s1 s2 C : ys <> [::] ->
  nd_filter flt s ys = Ok (es, s1) -> n_predict flt s1 = Ok (s2, C) -> n_correct flt s2 y = Err er ->
  nd_filter flt s (ys ++ y :: zs) = Err er.
Proof.
by move=> H E1 E2 /(C80_propagates (fun x => x) zs) [E3 _ _]; rewrite C80_filter_cat // E1; cbn [bind snd]; rewrite E2; cbn [bind fst]; rewrite E3.
Qed.

(** ** [einsum] *)

(** An operand whose number of axes does not match its subscripts is rejected
    with ValueError. *)
Theorem C80_einsum_axes (str : string) (ops : seq nd) i x A :
  List.nth_error (parse str).1 i = Some x -> List.nth_error ops i = Some A ->
  (if s_ell x then (size (shape A) < size (s_labels x))%N else size (shape A) != size (s_labels x)) ->
  einsum str ops = Err ValueError.
Proof.
move=> Hx HA H; rewrite /einsum; case: eqP => // _ /=.
suff -> : mapM (fun p : sub * nd => ell_rank p.1 p.2) (zip (parse str).1 ops) = Err ValueError by [].
have E : ell_rank x A = Err ValueError.
  by move: H; rewrite /ell_rank /s_labels size_cat eq_sym; case: (s_ell x) => [H|/negPf ->//]; rewrite leqNgt H.
elim: {str}(parse str).1 i ops Hx HA => [|z l IH] [|i] // [|B ops] //=.
  by move=> [->] [->]; rewrite E.
move=> H1 H2; rewrite (IH i ops H1 H2) /ell_rank.
by case: (s_ell z); case: ifP.
Qed.

(** ** In-place updates and linear algebra *)

(** [A += B] and [A -= B] with an operand of more axes raise ValueError,
    whether or not the shapes broadcast. *)
Theorem C80_inplace (A B : nd) : (size (shape A) < size (shape B))%N -> nd_iadd A B = Err ValueError /\ nd_isub A B = Err ValueError.
Proof.
move=> H; have E : forall s t r, bcast_rev s t = Ok r -> (size t <= size r)%N.
  by elim=> [|x s IH] [|z t] r //=; [case=> <-|case: (bdim x z) => //= d; case E: (bcast_rev s t) => [q|] //= [<-] /=; exact: IH E].
have V : forall s t e, bcast_rev s t = Err e -> e = ValueError.
  elim=> [|x s IH] [|z t] e //=; rewrite /bdim; case: eqP => _ /=.
    by case E': (bcast_rev s t) => [q|e'] //= [<-]; exact: IH E'.
  case: eqP => _ /=; first by case E': (bcast_rev s t) => [q|e'] //= [<-]; exact: IH E'.
  by case: eqP => _ /=; [case E': (bcast_rev s t) => [q|e'] //= [<-]; exact: IH E'|case].
have G f : imap2 f A B = Err ValueError.
  rewrite /imap2 /map2 /bcast; case Er: (bcast_rev _ _) => [r|e] /=; last by rewrite (V _ _ _ Er).
  have := E _ _ _ Er; rewrite size_rev => Hr; case: eqP => // Es.
  by move: H; rewrite -Es size_rev ltnNge Hr.
by split; exact: G.
Qed.
(** [np.linalg.inv] and [np.linalg.cholesky] of an array that is not a stack of
    square matrices raise LinAlgError. *)
Theorem C80_linalg (A : nd) :
  ((size (shape A) < 2)%N \/ exists s m n, shape A = s ++ [:: m; n] /\ m <> n) ->
  nd_inv A = Err LinAlgError /\ nd_cholesky A = Err LinAlgError.
Proof.
move=> H; have G op : stacked op A = Err LinAlgError; last by split; exact: G.
rewrite /stacked; case: H => [H|[s [m [n [-> Hn]]]]].
  by move: H; case: (shape A) => [|x [|z s]].
by rewrite size_cat addnK drop_size_cat //; case: eqP.
Qed.
End Meas.

(** A model of one state and two outputs.  A sample of three values is rejected by the
    extended filter, although its two active indices exist;
    so is a sample of one value, also by the unscented filter; a sample of five masked
    values is ignored. *)
Example C80_nonvacuous (F : rcfType) :
  let md : nmodel F := NModel (fun _ x => x) (fun _ _ => zeros F [:: 1; 1]%N) (fun _ _ => zeros F [:: 1; 1]%N) (fun _ x => ND [:: 2]%N (fun i => get x [:: 0%N])) (fun _ _ => zeros F [:: 1; 2]%N) (zeros F [:: 2; 2]%N) in
  let s := NS 0 (zeros F [:: 1]%N) (zeros F [:: 1; 1]%N) in
  let y l := NMeas (zeros F [:: size l]) l in
  [/\ forall i, nth false (nd_active (y [:: false; false; true])) i -> (i < 2)%N,
      nd_ekf_correct md s (y [:: false; false; true]) = Err IndexError,
      nd_ekf_correct md s (y [:: false]) = Err IndexError,
      nd_ukf_correct 1 md 1 (fun P => Ok P) s (y [:: false]) = Err IndexError
    & nd_ekf_correct md s (y [:: true; true; true; true; true]) = Ok (None, s)].
Proof.
move=> md s y; split.
- by case=> [|[|[|i]]] //=; rewrite nth_nil.
- by apply: C80_ekf_length => //; exists false.
- by apply: C80_ekf_length => //; exists false.
- have H : exists2 b, b \in nm_mask (y [:: false]) & b = false by exists false.
  have := C80_ukf_length 1 md 1 (fun P => Ok P) s H.
  case E: (nd_sigma_points _ _ _ _ _) => [[[S d] sg]|er]; first by apply.
  by move: E; rewrite /nd_sigma_points /nsigma oner_neq0 /setslice /=.
- by have [|-> _] := C80_all_masked 1 md 1 (fun P => Ok P) s (y := y [:: true; true; true; true; true]); first by case.
Qed.
