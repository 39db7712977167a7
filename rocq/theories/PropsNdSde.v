(** C78: the densities and random draws of stats.py and gensde.py on arrays
    are those of the elements, for all ways of stacking that broadcast. *)
From Coq Require Import String Ascii.
From Verif Require Import Py.
From mathcomp Require Import all_ssreflect all_algebra.
From Verif Require Import KalModel SdeModel NpModel NpLemmas NpOps NdSdeModel NdSdeLemmas NdTransLemmas PropsNdKal.
Set Implicit Arguments.
Unset Strict Implicit.
Unset Printing Implicit Defensive.
Import Order.TTheory GRing.Theory Num.Theory.
Local Open Scope ring_scope.

(** * Specification *)

(** The element of a stack of shape [s] that goes with element [e] of a larger
    stack: axes are aligned at the end, and those of length 1 are repeated. *)
Definition sel (s e : seq nat) : seq nat :=
  [seq (if nth 0%N s k == 1%N then 0%N else nth 0%N e (size e - size s + k)) | k <- iota 0 (size s)].

Section Spec.
Variable F : rcfType.
Local Notation nd := (nd F).

(** The masked components of an element. *)
Definition mask_at n (A : marray F) (e : seq nat) : {set 'I_n} :=
  match ma_mask A with
  | Some m => [set j : 'I_n | m (e ++ [:: nat_of_ord j])]
  | None => set0
  end.
Definition is_masked (A : marray F) : bool := isSome (ma_mask A).

(** A function of single vectors and its vectorised version. *)
Definition lifts_row nx n (f : nd -> nd) (f0 : 'rV[F]_nx -> 'rV[F]_n) : Prop :=
  forall x s, shape x = s ++ [:: nx] -> shape (f x) = s ++ [:: n] /\
    forall e, inb s e -> row_at n (f x) e = f0 (row_at nx x e).
Definition lifts_mat nx n m (f : nd -> nd) (f0 : 'rV[F]_nx -> 'M[F]_(n, m)) : Prop :=
  forall x s, shape x = s ++ [:: nx] -> shape (f x) = s ++ [:: n; m] /\
    forall e, inb s e -> mat_at n m (f x) e = f0 (row_at nx x e).
End Spec.

(** * Proofs *)

Lemma selE s e : (size s <= size e)%N -> sel s e = bidx s e.
Proof.
move=> H; apply: (@eq_from_nth _ 0%N) => [|k]; first by rewrite size_map size_iota size_bidx.
rewrite size_map size_iota => Hk; rewrite (nth_map 0%N) ?size_iota // nth_iota // add0n.
rewrite /bidx (nth_map (0, 0)%N) ?size_zip ?size_drop ?subKn ?minnn // nth_zip ?size_drop ?subKn //=.
by rewrite nth_drop.
Qed.

Lemma bidx_bidx s1 s e : fits s1 s -> (size s <= size e)%N -> bidx s1 (bidx s e) = bidx s1 e.
Proof.
move=> H He; have H1 := fits_size H.
rewrite !bidx_rev ?size_rev ?size_map ?size_zip ?size_rev ?(minn_idPl He) ?(leq_trans H1) //.
rewrite revK; congr rev; move: H; rewrite /fits.
elim: (rev s1) (rev s) (rev e) => [|m u IH] [|d v] [|k w] //= /andP[Hm /IH ->]; congr (_ :: _).
rewrite /bix1 /=; case: eqP => // m1; case: eqP => // d1.
by move: Hm; rewrite d1 => /orP[] /eqP.
Qed.

Lemma sel_bidx s1 s b e : fits s1 s -> fits s b -> inb b e -> sel s1 (bidx s e) = sel s1 e.
Proof.
move=> H1 H2 He; have Se : (size s <= size e)%N by rewrite (inb_size He) fits_size.
by rewrite !selE ?size_bidx ?(leq_trans (fits_size H1)) // ?fits_size // bidx_bidx.
Qed.

Lemma bidx_prepend k s e : (k + size s <= size e)%N -> drop k (bidx (nseq k 1%N ++ s) e) = bidx s e.
Proof.
have dz l (u v : seq nat) : drop l (zip u v) = zip (drop l u) (drop l v).
  elim: u v l => [|a u IH] [|c v] [|l] //=; first by case: (drop l v).
  by case: (drop l u).
move=> H; rewrite /bidx -map_drop dz size_cat size_nseq drop_size_cat ?size_nseq // drop_drop.
have H' : (size s <= size e)%N := leq_trans (leq_addl _ _) H.
by rewrite (addnC k (size s)) subnDA ?[(_ - _ - _ + k)%N]addnC subnKC // leq_subRL // addnC.
Qed.

Section Pdf.
Variables (F : rcfType) (expf : F -> F).
Local Notation nd := (nd F).

Lemma mx_at_prepend k n (A : nd) s e : (k + size s <= size e)%N ->
  mx_at n n (prepend k A) (bidx (nseq k 1%N ++ s) e) = mat_at n n A (bidx s e).
Proof.
move=> He; apply/matrixP => i j; rewrite !mxE /prepend /=; congr (get A _).
have Sz : size (bidx (nseq k 1%N ++ s) e) = (k + size s)%N by rewrite size_bidx size_cat size_nseq.
rewrite drop_cat Sz; case: ltnP => Hk; first by rewrite bidx_prepend.
have S0 : size s = 0%N by apply/eqP; rewrite -leqn0 -(leq_add2l k) addn0.
by rewrite S0 addn0 subnn drop0 (size0nil S0) bidx_nil.
Qed.

(** stats.py:21-28 on stacks. *)
Lemma nd_pdf_each (dev cov : nd) s t n b : shape dev = s ++ [:: n] -> shape cov = t ++ [:: n; n] ->
  (size t <= size s)%N -> bcast s t = Ok b ->
  each b (fun A => shape A = b) (fun A e v => get A e = v) (nd_pdf expf dev cov)
    (fun e => cond_pdf expf 0 (mat_at n n cov (bidx t e)) (row_at n dev (bidx s e)) None).
Proof.
move=> Hd Hc Hst Hb.
have Sb : size b = size s by rewrite (bcast_size Hb); apply/maxn_idPl.
pose k := (size s - size t)%N; pose t' := nseq k 1%N ++ t.
have St' : size t' = size s by rewrite size_cat size_nseq subnK.
rewrite /nd_pdf Hd Hc !size_cat addn1 addn2 ltnS.
set C := (if _ then _ else _).
have HC : shape C = t' ++ [:: n; n].
  rewrite /C; case: ltnP => H; first by rewrite /= Hc -catA; congr (nseq _ _ ++ _); rewrite add1n !subSS.
  by rewrite Hc /t' /k; have /eqP -> : (size s - size t == 0)%N by [].
have MC e : inb b e -> mx_at n n C (bidx t' e) = mat_at n n cov (bidx t e).
  move=> He; have Se : size e = size s by rewrite (inb_size He).
  rewrite /C; case: ltnP => H; last first.
    by rewrite /t' /k; have /eqP -> : (size s - size t == 0)%N by []; apply/matrixP => i j; rewrite !mxE.
  by rewrite add1n !subSS -/k mx_at_prepend // subnK // Se.
have Hb' : bcast t' s = Ok b by rewrite bcast_prepend ?subnK // bcastC.
have [Ft' Fs] := bcast_fits Hb'.
have := nd_solveE HC Hd (esym St') Hb'.
case E: (nd_solve C dev) => [X|er] /= H; last first.
  case: H => -> [e He]; rewrite MC // => U; exists e => //.
  by rewrite /cond_pdf /mvn_pdf (negbTE U).
case: H => HX HX'; have [q [-> [Hq Gq]]] := einsum_dot Hd HX (fits_bcast Fs); cbn [bind].
have [d [-> [Hdet Gd]]] := nd_detE HC; cbn [bind].
have Ht : bcast b t' = Ok b by apply: fits_bcast'.
rewrite /nd_div /map2 /= Hq Hdet Ht /=; split=> // e He.
have [U Gi] := HX' e He; rewrite MC // in U.
have Be : bidx b e = e by apply: bidx_id.
exists (get (ND b (fun i => expf (- 2%:R^-1 * get q (bidx b i)) / Num.sqrt (get d (bidx t' i)))) e) => //.
rewrite /cond_pdf /mvn_pdf /= U /=; congr (Ok (expf (_ * _) / Num.sqrt _)); last by rewrite Gd MC.
rewrite Be (Gq e He) subr0 [LHS]mxE; apply: eq_bigr => i _; rewrite Be (Gi i) MC //; congr (_ * _); first by rewrite mxE.
by congr ((_ *m _) i 0); apply/colP => j; rewrite !mxE.
Qed.

Variables (n : nat) (x mean : marray F) (cov : nd) (s1 s2 s t b : seq nat).
Hypothesis Hx : shape (ma_data x) = s1 ++ [:: n].
Hypothesis Hm : shape (ma_data mean) = s2 ++ [:: n].
Hypothesis Hc : shape cov = t ++ [:: n; n].
Hypothesis Hs : bcast s1 s2 = Ok s.

Let xe e := row_at n (ma_data x) (sel s1 e).
Let me e := row_at n (ma_data mean) (sel s2 e).
Let Me e := mask_at n x (sel s1 e) :|: mask_at n mean (sel s2 e).
Let Ce e := mat_at n n cov (sel t e).

Lemma ma_sub_ok : exists D, ma_sub x mean = Ok (MA D (if is_masked x || is_masked mean then Some (fun i => masked_at x i || masked_at mean i) else None)) /\ shape D = s ++ [:: n] /\ forall e, inb s e -> row_at n D e = xe e - me e.
Proof.
have [D [ED [HD GD]]] := map2_bcast (fun x y => x - y) Hx Hm Hs; have [F1 F2] := bcast_fits Hs.
rewrite /ma_sub /nd_sub ED /=; exists D; split.
  by rewrite /is_masked; case: (ma_mask x) => [?|]; case: (ma_mask mean).
split=> // e He; have Se := inb_size He.
apply/rowP => j; rewrite !mxE GD ?(inb_size He) //= ?ltn_ord // /xe /me.
by rewrite !selE ?Se ?fits_size.
Qed.

Hypothesis Hst : (size t <= size s)%N.
Hypothesis Hb : bcast s t = Ok b.

(** Arrays without masks. *)
Theorem C78_density : ~~ is_masked x -> ~~ is_masked mean ->
  each b (fun A => shape A = b) (fun A e v => get A e = v) (nd_mvn_pdf expf x mean cov)
    (fun e => cond_pdf expf (me e) (Ce e) (xe e) None).
Proof.
move=> /negbTE mx /negbTE mm; have [D [ED [HD GD]]] := ma_sub_ok.
rewrite /nd_mvn_pdf ED; cbn [bind ma_mask ma_data]; rewrite mx mm /=.
have [F1 F2] := bcast_fits Hs; have [F3 F4] := bcast_fits Hb.
have E e : inb b e -> cond_pdf expf 0 (mat_at n n cov (bidx t e)) (row_at n D (bidx s e)) None = cond_pdf expf (me e) (Ce e) (xe e) None.
  move=> He; have Se := inb_size He; rewrite GD ?(fits_inb F3) // /cond_pdf subr0 /xe /me /Ce.
  by rewrite (sel_bidx F1 F3 He) (sel_bidx F2 F3 He) (selE (s := t)) // Se fits_size.
have := nd_pdf_each HD Hc Hst Hb; case: (nd_pdf _ _ _) => [A|er] /=.
- by case=> HA H; split=> // e He; have [v Hv Ev] := H e He; exists v; rewrite // -E.
- by case=> e He H; exists e; rewrite // -E.
Qed.

Lemma masked_bidx e (j : 'I_n) : inb s e -> masked_at x (e ++ [:: nat_of_ord j]) || masked_at mean (e ++ [:: nat_of_ord j]) = (j \in Me e).
Proof.
move=> He; have [F1 F2] := bcast_fits Hs; have Se := inb_size He.
rewrite /Me in_setU /masked_at /mask_at !selE ?Se ?fits_size // Hx Hm !bidx_cat ?Se ?fits_size //= ?ltn_ord //.
by case: (ma_mask x) => [?|]; case: (ma_mask mean) => [?|]; rewrite ?inE.
Qed.

(** Every component of every element masked: ones, whatever the covariances. *)
Theorem C78_all_masked : is_masked x || is_masked mean -> (forall e, inb s e -> Me e = setT) ->
  exists A, nd_mvn_pdf expf x mean cov = Ok A /\ shape A = s /\ forall e, get A e = 1.
Proof.
move=> mx H; have [D [ED [HD GD]]] := ma_sub_ok.
rewrite /nd_mvn_pdf ED; cbn [bind ma_mask ma_data]; rewrite mx.
have -> : all (fun i => masked_at x i || masked_at mean i) (indices (shape D)).
  apply/allP => i; rewrite mem_indices HD => Hi.
  have [e [j [Ei He]]] : exists e (j : 'I_n), i = e ++ [:: nat_of_ord j] /\ inb s e.
    have Si := inb_size Hi; rewrite size_cat /= in Si.
    have [] := inb_cat_inv (i := take (size s) i) (j := drop (size s) i) (s := s) (t := [:: n]) _ _.
    - by rewrite size_takel // Si leq_addr.
    - by rewrite cat_take_drop.
    case E : (drop (size s) i) => [|j [|? ?]] //= He; rewrite ?andbF // andbT => Hj.
    by exists (take (size s) i), (Ordinal Hj); rewrite -[in LHS](cat_take_drop (size s) i) E.
  by rewrite Ei masked_bidx // H // inE.
eexists; split; first by []; split=> //=; by rewrite HD size_cat addn1 /= take_size_cat.
Qed.

(** Some component not masked: elements are as they are alone, except that one
    with all components masked has the density of its mean, not 1. *)
Theorem C78_masked e0 : is_masked x || is_masked mean -> inb s e0 -> Me e0 <> setT ->
  each b (fun A => shape A = b) (fun A e v => get A e = v) (nd_mvn_pdf expf x mean cov)
    (fun e => if Me e == setT then cond_pdf expf (me e) (Ce e) (me e) None else cond_pdf expf (me e) (Ce e) (xe e) (Some (Me e))).
Proof.
move=> mx He0 NT; have [D [ED [HD GD]]] := ma_sub_ok.
rewrite /nd_mvn_pdf ED; cbn [bind ma_mask ma_data]; rewrite mx.
have -> : all (fun i => masked_at x i || masked_at mean i) (indices (shape D)) = false.
  apply/negbTE/allPn; case: (pickP (fun j => j \notin Me e0)) => [j Hj|H0]; last first.
    by case: NT; apply/setP => j; rewrite in_setT; have := H0 j; case: (j \in _).
  exists (e0 ++ [:: nat_of_ord j]); last by rewrite masked_bidx.
  by rewrite mem_indices HD inb_cat //= ltn_ord.
set m := (fun i => masked_at x i || masked_at mean i); have [F1 F2] := bcast_fits Hs; have [F3 F4] := bcast_fits Hb.
have HU : shape (unmask D m) = s ++ [:: n] by [].
have E e : inb b e -> cond_pdf expf 0 (mat_at n n cov (bidx t e)) (row_at n (unmask D m) (bidx s e)) None
    = if Me e == setT then cond_pdf expf (me e) (Ce e) (me e) None else cond_pdf expf (me e) (Ce e) (xe e) (Some (Me e)).
  move=> He; have Se := inb_size He; have Hes := fits_inb F3 He.
  have Ec : mat_at n n cov (bidx t e) = Ce e by rewrite /Ce selE // Se fits_size.
  have Ex : xe (bidx s e) = xe e by rewrite /xe (sel_bidx F1 F3 He).
  have Em : me (bidx s e) = me e by rewrite /me (sel_bidx F2 F3 He).
  have EM : Me (bidx s e) = Me e by rewrite /Me (sel_bidx F1 F3 He) (sel_bidx F2 F3 He).
  have Er : row_at n (unmask D m) (bidx s e) = \row_j ((xe e - me e) 0 j * (j \notin Me e)%:R).
    apply/rowP => j; rewrite [LHS]mxE [RHS]mxE /unmask /= /m masked_bidx // EM -Ex -Em -GD //.
    by rewrite [in RHS]mxE.
  rewrite Ec Er /cond_pdf subr0; case: eqP => [ET|NE].
    have -> // : \row_j ((xe e - me e) 0 j * (j \notin Me e)%:R) = me e - me e.
    by apply/rowP => j; rewrite subrr ET !mxE inE mulr0.
  rewrite /mvn_pdf /=; have -> // : [forall k : 'I_1, Me e == setT] = false.
  by apply/negbTE/negP => /forallP /(_ 0) /eqP.
have := nd_pdf_each HU Hc Hst Hb; case: (nd_pdf _ _ _) => [A|er] /=.
- by case=> HA H; split=> // e He; have [v Hv Ev] := H e He; exists v; rewrite // -E.
- by case=> e He H; exists e; rewrite // -E.
Qed.
End Pdf.

(** * Covariances with more axes than deviations *)
Section More.
Variables (F : rcfType) (expf : F -> F).
Local Notation nd := (nd F).

(** One deviation, or a stack the last axis of which is not as long as the
    vectors, with a covariance of more axes: nothing is computed. *)
Theorem C78_more_axes (x mean : nd) cov s t n : shape x = s ++ [:: n] -> shape mean = s ++ [:: n] -> shape cov = t ++ [:: n; n] ->
  (size s < size t)%N -> last n.+1 s <> n ->
  nd_mvn_pdf expf (plain x) (plain mean) cov = Err ValueError.
Proof.
move=> Hx Hm Hc Hst Hl; rewrite /nd_mvn_pdf /ma_sub /nd_sub /map2 /= Hx Hm bcast_same /=.
rewrite /nd_pdf /= Hc !size_cat addn1 addn2 ltnS ltnNge (ltnW Hst) /=.
rewrite /nd_solve (squareE Hc) /= size_cat addn1 eqSS ltn_eqF //.
case: s Hl {Hx Hm Hst} => [|m s] //= Hl; rewrite subn2 /= -cat_cons nth_cat /= ltnSn nth_last /=.
by move: Hl; case: eqP.
Qed.

(** A covariance that is not a stack of square matrices, a vector of length
    other than 1 included. *)
Theorem C78_not_square (x mean : nd) cov s n : shape x = s ++ [:: n] -> shape mean = s ++ [:: n] ->
  ((exists t p q, shape cov = t ++ [:: p; q] /\ p <> q) \/ exists q, shape cov = [:: q] /\ q <> 1%N) ->
  nd_mvn_pdf expf (plain x) (plain mean) cov = Err LinAlgError.
Proof.
move=> Hx Hm Hc; rewrite /nd_mvn_pdf /ma_sub /nd_sub /map2 /= Hx Hm bcast_same /=.
have G (C : nd) t p q : shape C = t ++ [:: p; q] -> p <> q -> square C = Err LinAlgError.
  by move=> HC Hn; rewrite /square HC size_cat addnK drop_size_cat //; case: eqP.
rewrite /nd_pdf /= size_cat addn1; case: ifP => Hn; rewrite /nd_solve.
  case: Hc => [[t [p [q [Hc Hpq]]]]|[q [Hc Hq]]].
    by rewrite (G _ (nseq (1 + (size s).+1 - size (shape cov)) 1%N ++ t) p q) //= Hc catA.
  rewrite (G _ (nseq (size s) 1%N) 1%N q) //=; last by move=> E; apply: Hq.
  have E : (1 + (size s).+1 - 1 = size s + 1)%N by rewrite add1n subn1 addn1.
  by rewrite Hc [size [:: q]]/= E nseqD -catA.
case: Hc => [[t [p [q [Hc Hpq]]]]|[q [Hc Hq]]]; first by rewrite (G _ t p q).
by move: Hn; rewrite Hc.
Qed.

(** A stack whose last axis is as long as the vectors: no exception for that
    reason, but the rows of the deviations are mixed.  What is computed for
    row [i] multiplies it with row [i] of the matrix [C^-1 D], where [D] is
    the matrix of the [n] deviations, instead of with [C^-1 d_i]. *)
Theorem C78_silent (dev cov A : nd) s t n b : shape dev = s ++ [:: n; n] -> shape cov = t ++ [:: n; n] ->
  ((size s).+1 < size t)%N -> bcast t s = Ok b ->
  nd_pdf expf dev cov = Ok A ->
  bcast (b ++ [:: n]) t = Ok (shape A) /\
  forall E e (i : 'I_n), inb (shape A) E -> sel (b ++ [:: n]) E = e ++ [:: nat_of_ord i] -> inb b e ->
    let D := mat_at n n dev (sel s e) in
    get A E = expf (- 2%:R^-1 * (row i D *m (row i (invmx (mat_at n n cov (sel t e)) *m D))^T) 0 0)
              / Num.sqrt (\det (mat_at n n cov (sel t E))).
Proof.
move=> Hd Hc Hst Hb; rewrite /nd_pdf Hd Hc !size_cat !addn2 !ltnS.
have -> /= : (size t <= size s)%N = false by rewrite leqNgt ltnW.
have := nd_solve_mat Hc Hd _ Hb; case: (nd_solve cov dev) => [X|//] /= [].
  by move=> Ht; rewrite Ht ltnn in Hst.
move=> HX GX; have [Ft Fs] := bcast_fits Hb.
have HX' : shape X = (b ++ [:: n]) ++ [:: n] by rewrite HX -catA.
have Hd' : shape dev = (s ++ [:: n]) ++ [:: n] by rewrite Hd -catA.
have Hb' : bcast (s ++ [:: n]) (b ++ [:: n]) = Ok (b ++ [:: n]) by rewrite bcast_cat (fits_bcast Fs).
have [q [-> [Hq Gq]]] := einsum_dot Hd' HX' Hb'; cbn [bind].
have [d [-> [Hdet Gd]]] := nd_detE Hc; cbn [bind].
rewrite /nd_div /map2 /= Hq Hdet; case EB: (bcast _ _) => [B|//] /= -[<-] /=; split=> // E e i HE Ei He.
have [F1 F2] := bcast_fits EB; have SE := inb_size HE; have Se := inb_size He.
rewrite selE ?SE ?fits_size // in Ei; rewrite !selE ?SE ?Se ?fits_size // Ei.
have Hei : inb (b ++ [:: n]) (e ++ [:: nat_of_ord i]) by rewrite inb_cat //= ltn_ord.
rewrite Gq // Gd; congr (_ / _); congr (expf (_ * _)).
rewrite [RHS]mxE; apply: eq_bigr => j _.
rewrite (bidx_id Hei) bidx_cat ?Se ?fits_size //= ?ltn_ord // -!catA /= GX // !mxE; congr (_ * _).
Qed.
End More.

(** * gensde.py *)
Section Gensde.
Variables (F : rcfType) (expf : F -> F) (nx ny nw : nat).
Local Notation nd := (nd F).
Variable sd : gensde F.
Variables (f : nat -> 'rV[F]_nx -> 'rV[F]_nx) (Q : nat -> 'rV[F]_nx -> 'M[F]_nx) (g : nat -> 'rV[F]_nx -> 'M[F]_(nx, nw)).
Variables (h : nat -> 'rV[F]_nx -> 'rV[F]_ny).
Hypothesis Hf : forall k, lifts_row (gs_f sd k) (f k).
Hypothesis HQ : forall k, lifts_mat (gs_Q sd k) (Q k).
Hypothesis Hg : forall k, lifts_mat (gs_g sd k) (g k).
Hypothesis Hh : forall k, lifts_row (gs_h sd k) (h k).
Hypothesis HR : shape (gs_R sd) = [:: ny; ny].
Hypothesis Hw : gs_nw sd = nw.

Variables (k : nat) (x : nd) (s : seq nat).
Hypothesis Hx : shape x = s ++ [:: nx].

(** The transition density from a stack of states to a stack of states. *)
Theorem C78_trans_pdf (xn : nd) s1 b : shape xn = s1 ++ [:: nx] -> bcast s1 s = Ok b ->
  each b (fun A => shape A = b) (fun A e v => get A e = v) (nd_trans_pdf expf sd k x (plain xn))
    (fun e => let xe := row_at nx x (sel s e) in cond_pdf expf (f k xe) (Q k xe) (row_at nx xn (sel s1 e)) None).
Proof.
move=> H1 Hb; have [Sf Gf] := Hf k Hx; have [SQ GQ] := HQ k Hx; have [F1 F2] := bcast_fits Hb.
have := @C78_density F expf nx (plain xn) (plain (gs_f sd k x)) (gs_Q sd k x) s1 s b s b H1 Sf SQ Hb (fits_size F2) (fits_bcast' F2) isT isT.
have E e : inb b e -> inb s (sel s e) by move=> He; rewrite selE ?(inb_size He) ?fits_size //; apply: fits_inb He.
rewrite /nd_trans_pdf; case: (nd_mvn_pdf _ _ _ _) => [A|er] /=.
- case=> HA H; split=> // e He; have [v Hv Ev] := H e He; exists v => //.
  by rewrite -Gf ?E // -GQ ?E.
- by case=> e He H; exists e => //; rewrite -Gf ?E // -GQ ?E.
Qed.

(** The measurement density of a stack of states, for one measurement or a
    stack, with or without missing components. *)
Theorem C78_meas_pdf (y : nd) s1 b : shape y = s1 ++ [:: ny] -> bcast s1 s = Ok b ->
  each b (fun A => shape A = b) (fun A e v => get A e = v) (nd_meas_pdf expf sd k x (plain y))
    (fun e => cond_pdf expf (h k (row_at nx x (sel s e))) (mat_at ny ny (gs_R sd) [::]) (row_at ny y (sel s1 e)) None).
Proof.
move=> H1 Hb; have [Sh Gh] := Hh k Hx; have [F1 F2] := bcast_fits Hb.
have := @C78_density F expf ny (plain y) (plain (gs_h sd k x)) (gs_R sd) s1 s b [::] b H1 Sh HR Hb isT (bcast_nil b) isT isT.
have E e : inb b e -> inb s (sel s e) by move=> He; rewrite selE ?(inb_size He) ?fits_size //; apply: fits_inb He.
rewrite /nd_meas_pdf; case: (nd_mvn_pdf _ _ _ _) => [A|er] /=.
- case=> HA H; split=> // e He; have [v Hv Ev] := H e He; exists v => //.
  by rewrite -Gh ?E.
- by case=> e He H; exists e => //; rewrite -Gh ?E.
Qed.
Theorem C78_meas_missing (y : nd) m s1 b : shape y = s1 ++ [:: ny] -> bcast s1 s = Ok b ->
  let M e := [set j : 'I_ny | m (sel s1 e ++ [:: nat_of_ord j])] in
  let he e := h k (row_at nx x (sel s e)) in
  let R := mat_at ny ny (gs_R sd) [::] in
  ((forall e, inb b e -> M e = setT) ->
    exists A, nd_meas_pdf expf sd k x (MA y (Some m)) = Ok A /\ shape A = b /\ forall e, get A e = 1) /\
  forall e0, inb b e0 -> M e0 <> setT ->
  each b (fun A => shape A = b) (fun A e v => get A e = v) (nd_meas_pdf expf sd k x (MA y (Some m)))
    (fun e => if M e == setT then cond_pdf expf (he e) R (he e) None else cond_pdf expf (he e) R (row_at ny y (sel s1 e)) (Some (M e))).
Proof.
move=> H1 Hb M he R; have [Sh Gh] := Hh k Hx; have [F1 F2] := bcast_fits Hb.
have E e : inb b e -> inb s (sel s e) by move=> He; rewrite selE ?(inb_size He) ?fits_size //; apply: fits_inb He.
have U e : mask_at ny (MA y (Some m)) (sel s1 e) :|: mask_at ny (plain (gs_h sd k x)) (sel s e) = M e by rewrite /mask_at /= setU0.
split=> [H|e0 He0 NT].
- apply: (@C78_all_masked F expf ny (MA y (Some m)) (plain (gs_h sd k x)) (gs_R sd) s1 s b H1 Sh Hb isT) => e He.
  by rewrite U; apply: H.
- have := @C78_masked F expf ny (MA y (Some m)) (plain (gs_h sd k x)) (gs_R sd) s1 s b [::] b H1 Sh HR Hb isT (bcast_nil b) e0 isT He0.
  rewrite U => /(_ NT); rewrite /nd_meas_pdf; case: (nd_mvn_pdf _ _ _ _) => [A|er] /=.
  + case=> HA H; split=> // e He; have [v Hv Ev] := H e He; exists v => //.
    by rewrite /he -Gh ?E // -U.
  + by case=> e He H; exists e => //; rewrite /he -Gh ?E // -U.
Qed.

(** Random draws: one for every element, from the draw [w e]; [randn] is asked
    for the right shape. *)
Theorem C78_trans_rvs (randn : seq nat -> nd) : shape (randn (s ++ [:: nw])) = s ++ [:: nw] ->
  exists A, nd_trans_rvs sd randn k x None = Ok A /\ shape A = s ++ [:: nx] /\
  forall e, inb s e -> let xe := row_at nx x e in
    trans_rvs (f k xe)^T (g k xe) (row_at nw (randn (s ++ [:: nw])) e)^T None = Ok (row_at nx A e)^T.
Proof.
move=> Hr; have [Sf Gf] := Hf k Hx; have [Sg Gg] := Hg k Hx.
rewrite /nd_trans_rvs Sf Hw size_cat addn1 /= take_size_cat //.
have [G [-> [SG GG]]] := einsum_mv Sg Hr (bcast_same s); cbn [bind].
have [A [EA [SA GA]]] := map2_bcast +%R Sf SG (bcast_same s).
rewrite /nd_add EA; exists A; split=> //; split=> // e He /=; congr Ok; apply/colP => i; rewrite !mxE.
rewrite GA //= ?ltn_ord // (bidx_id He) GG // (bidx_id He) -Gf // -Gg // !mxE; congr (_ + _).
by apply: eq_bigr => j _; rewrite !mxE.
Qed.
Theorem C78_trans_rvs_given randn w : nd_trans_rvs sd randn k x (Some w) = Err TypeError.
Proof. by []. Qed.
End Gensde.

(** Three states and two measurements of which one is missing, in the plane. *)
Example C78_nonvacuous (F : rcfType) :
  let x : nd F := ND [:: 3; 1; 2]%N (fun i => (nth 0%N i 0)%:R) in
  let y : nd F := ND [:: 2; 2]%N (fun=> 1) in
  let R : nd F := ND [:: 2; 2]%N (fun i => (nth 0%N i 0%N == nth 0%N i 1%N)%:R) in
  let sd := GS (fun _ z => z) (fun _ z => ND (shape z ++ [:: 2])%N (fun i => get R (drop (size i - 2) i))) (fun _ z => z) (fun _ z => z) R 2 in
  [/\ bcast [:: 2]%N [:: 3; 1]%N = Ok [:: 3; 2]%N, sel [:: 3; 1]%N [:: 2; 1]%N = [:: 2; 0]%N,
      forall k, lifts_row (gs_h sd k) (fun v : 'rV[F]_2 => v),
      forall k, lifts_mat (gs_Q sd k) (fun v : 'rV[F]_2 => 1%:M : 'M[F]_2)
    & exists A, nd_meas_pdf id sd 0 x (MA y (Some (fun i => i == [:: 1; 0]%N))) = Ok A /\ shape A = [:: 3; 2]%N].
Proof.
move=> x y R sd.
have HR : mat_at 2 2 R [::] = 1%:M by apply/matrixP => i j; rewrite !mxE.
split=> //.
- move=> k z s Hz; rewrite /= Hz -catA; split=> // e He; apply/matrixP => i j; rewrite !mxE /=.
  by rewrite size_cat addnK drop_size_cat.
- pose M (e : seq nat) := [set j : 'I_2 | sel [:: 2]%N e ++ [:: nat_of_ord j] == [:: 1; 0]%N].
  have Hh k : lifts_row (gs_h sd k) (fun v : 'rV[F]_2 => v) by move=> z s Hz.
  have [_ H] := @C78_meas_missing F id 2 2 sd (fun _ v => v) Hh erefl 0 x [:: 3; 1]%N erefl y (fun i => i == [:: 1; 0]%N) [:: 2]%N [:: 3; 2]%N erefl erefl.
  have NT : M [:: 0; 0]%N <> setT by move/setP /(_ ord0); rewrite !inE.
  have := H [:: 0; 0]%N isT NT; case: (nd_meas_pdf _ _ _ _ _) => [A|er] /=; first by case=> SA _; exists A.
  by case=> e _; rewrite HR /cond_pdf /mvn_pdf unitmx1; case: ifP => //=; case: ifP.
Qed.
