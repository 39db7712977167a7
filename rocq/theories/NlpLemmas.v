(** From the list-based model of the problems to matrices and polynomials over
    a real closed field. *)
From Coq Require Import Ring String List.
From Verif Require Import Py NdArray ColModel ColBuild GenModel ColCalls AssemblyLemmas PropsCol ColValues.
From mathcomp Require Import all_ssreflect all_algebra polyorder polyrcf.
From Verif Require Import McRing RkModel LegendreLemmas QuadLemmas LobattoLemmas PropsRk SymColModel PropsSymCol.
Set Implicit Arguments.
Unset Strict Implicit.
Unset Printing Implicit Defensive.
Import Order.TTheory GRing.Theory Num.Theory.
Local Open Scope ring_scope.

(** The numbers of the problem model, as a field. *)
Lemma field_rt (F : rcfType) : @ring_theory F 0 1 (fun x y => x + y) (fun x y => x * y) (fun x y => x - y) (fun x => - x) eq.
Proof.
split => *; rewrite ?add0r ?addrA ?mul1r ?mulrA ?mulrDl ?subrr //.
  exact: addrC.
exact: mulrC.
Qed.
#[export] Instance num_F (F : rcfType) : Py.Num F := {| num_rt := field_rt F |}.
#[export] Instance ord_F (F : rcfType) : NumOrd F := {| nltb := fun x y => x < y |}.

Section Nlp.
Variable F : rcfType.
Implicit Types (l : seq F).

Lemma nthE (A : Type) (d : A) (l : seq A) i : List.nth i l d = nth d l i.
Proof. by elim: l i => [|x l IH] [|i] //=. Qed.
Lemma flat_mapE (A B : Type) (f : A -> seq B) (l : seq A) : List.flat_map f l = flatten (map f l).
Proof. by elim: l => [|x l IH] //=; rewrite -IH. Qed.
Lemma lsumE l : lsum l = \sum_(x <- l) x.
Proof.
by elim: l => [|x l IH] /=; rewrite ?big_nil // big_cons -IH.
Qed.
Lemma lsum_flat (f : nat -> seq F) k : lsum (List.flat_map f (List.seq 0 k)) = \sum_(i < k) \sum_(x <- f i) x.
Proof.
rewrite lsumE flat_mapE -(big_mkord xpredT (fun i => \sum_(x <- f i) x)) /index_iota subn0.
change (List.seq 0 k) with (iota 0 k); elim: (iota 0 k) => [|i s IH] /=; first by rewrite !big_nil.
by rewrite big_cat big_cons IH.
Qed.

(** Elements of a flattened list of blocks of the same length. *)
Lemma zero_blocks (f : nat -> seq F) k w : (forall i, (i < k)%N -> size (f i) = w) ->
  ((forall i, (i < k * w)%N -> (flatten (map f (iota 0 k)))`_i = 0) <->
   forall i, (i < k)%N -> forall j, (j < w)%N -> (f i)`_j = 0).
Proof.
move=> Hw; have HA : all (fun s => size s == w) (map f (iota 0 k)).
  by apply/allP => s /mapP [i]; rewrite mem_iota => /andP [_ Hi] ->; rewrite Hw.
have E i j : (i < k)%N -> (j < w)%N -> (flatten (map f (iota 0 k)))`_(i * w + j) = (f i)`_j.
  by move=> Hi Hj; rewrite (nth_uniform HA) ?size_map ?size_iota // (nth_map 0%N) ?size_iota // nth_iota.
split=> H.
  move=> i Hi j Hj; rewrite -E // H //.
  by apply: (@leq_trans (i.+1 * w)); rewrite ?leq_mul2r ?Hi ?orbT // mulSn addnC ltn_add2r.
move=> a Ha; have w0 : (0 < w)%N by case: w Ha {Hw HA E H}; rewrite ?muln0.
rewrite (divn_eq a w) E ?ltn_mod ?H ?ltn_mod // ltn_divLR //.
Qed.
Lemma size_blocks (f : nat -> seq F) k w : (forall i, (i < k)%N -> size (f i) = w) -> size (flatten (map f (iota 0 k))) = (k * w)%N.
Proof.
move=> Hw; rewrite -[X in _ = (X * _)%N](size_iota 0 k).
have : forall i, i \in iota 0 k -> size (f i) = w by move=> i; rewrite mem_iota => /andP [_ /Hw].
elim: (iota 0 k) => [|i s IH] //= H; rewrite size_cat IH ?mulSn ?H ?inE ?eqxx // => j Hj.
by rewrite H // inE Hj orbT.
Qed.

(** *** Specification: an array of [k] rows of [w] elements *)
Definition tab2 (k w : nat) l : seq (seq F) := [seq [seq l`_(i * w + j) | j <- iota 0 w] | i <- iota 0 k].

Lemma tab2_rows (f : nat -> nat -> F) a k w :
  tab2 k w (rows f (List.seq a k) w) = [seq [seq f (a + i)%N j | j <- iota 0 w] | i <- iota 0 k].
Proof.
rewrite /tab2 /rows flat_mapE; apply/eq_in_map => i; rewrite mem_iota => /andP [_ Hi].
apply/eq_in_map => j; rewrite mem_iota => /andP [_ Hj].
have HA : all (fun s : seq F => size s == w) (map (fun i => List.map (f i) (List.seq 0 w)) (List.seq a k)).
  by apply/allP => s /mapP [b _ ->]; rewrite (size_map (f b) (iota 0 w)) size_iota.
change (List.seq a k) with (iota a k) in HA |- *.
rewrite (nth_uniform HA) ?size_map ?size_iota // (nth_map 0%N) ?size_iota // nth_iota //.
by rewrite (nth_map 0%N) ?size_iota // nth_iota.
Qed.
Lemma tab2_list (f : nat -> nat -> F) (s : seq nat) w :
  tab2 (size s) w (rows f s w) = [seq [seq f i j | j <- iota 0 w] | i <- s].
Proof.
rewrite /tab2 /rows flat_mapE -[in RHS](mkseq_nth 0%N s) /mkseq -map_comp; apply/eq_in_map => i; rewrite mem_iota => /andP [_ Hi].
apply/eq_in_map => j; rewrite mem_iota => /andP [_ Hj].
have HA : all (fun s : seq F => size s == w) (map (fun i => List.map (f i) (List.seq 0 w)) s).
  by apply/allP => r /mapP [b _ ->]; rewrite (size_map (f b) (iota 0 w)) size_iota.
rewrite (nth_uniform HA) ?size_map // (nth_map 0%N) //.
by rewrite (nth_map 0%N) ?size_iota // nth_iota.
Qed.
Lemma rows_size (f : nat -> nat -> F) s w : size (rows f s w) = (size s * w)%N.
Proof.
rewrite /rows flat_mapE; elim: s => [|x s IH] //=.
by rewrite size_cat IH (size_map (f x) (iota 0 w)) size_iota mulSn.
Qed.

(** *** Polynomials in time and polynomials on the unit interval *)
Lemma affine_unique m n (s x v : nat -> F) (t0 h : F) : h != 0 ->
  (exists! Q : {poly F}, (size Q <= m)%N /\ forall j, (j < n)%N -> Q.[s j] = x j /\ Q^`().[s j] = h * v j) <->
  (exists! P : {poly F}, (size P <= m)%N /\ forall j, (j < n)%N -> P.[t0 + s j * h] = x j /\ P^`().[t0 + s j * h] = v j).
Proof.
move=> h0; pose l : {poly F} := h *: 'X + t0%:P; pose k : {poly F} := h^-1 *: 'X - (t0 / h)%:P.
have El y : l.[y] = t0 + y * h by rewrite /l hornerD hornerZ hornerX hornerC addrC mulrC.
have Ek y : k.[t0 + y * h] = y.
  by rewrite /k hornerD hornerN hornerZ hornerX hornerC mulrDr [t0 / h]mulrC addrAC subrr add0r mulrCA mulVf ?mulr1.
have lk : l \Po k = 'X.
  rewrite /l comp_polyD comp_polyZ comp_polyX comp_polyC /k scalerBr scalerA divff // scale1r -[h *: _]mul_polyC -polyCM mulrCA divff // mulr1.
  by rewrite subrK.
have kl : k \Po l = 'X.
  rewrite /k comp_polyB comp_polyZ comp_polyX comp_polyC /l scalerDr scalerA mulVf // scale1r -[h^-1 *: _]mul_polyC -polyCM [h^-1 * _]mulrC.
  by rewrite addrK.
have sz (a b : F) (Q : {poly F}) : (size Q <= m)%N -> (size (Q \Po (a *: 'X + b%:P)) <= m)%N.
  move=> SQ; have [->|Q0] := eqVneq Q 0; first by rewrite comp_poly0 size_poly0.
  apply: leq_trans (size_comp_poly_leq _ _) (leq_trans _ SQ).
  have S0 : (0 < size Q)%N by rewrite size_poly_gt0.
  have Sl : (size (a *: 'X + b%:P : {poly F})%R <= 2)%N.
    by rewrite (leq_trans (size_add _ _)) // geq_max (leq_trans (size_scale_leq _ _)) ?size_polyX //= (leq_trans (size_polyC_leq1 _)).
  rewrite -[X in (_ <= X)%N](prednK S0) ltnS -[X in (_ <= X)%N]muln1 leq_mul2l; apply/orP; right.
  by case: (size _) Sl => [|[|[]]].
have szk (Q : {poly F}) : (size Q <= m)%N -> (size (Q \Po k) <= m)%N by move=> ?; rewrite /k -polyCN; apply: sz.
have dl (Q : {poly F}) : (Q \Po l)^`() = h *: (Q^`() \Po l).
  have E : l^`() = h%:P by rewrite /l derivD derivZ derivX derivC addr0 alg_polyC.
  by rewrite deriv_comp E -mul_polyC mulrC.
have dk (Q : {poly F}) : (Q \Po k)^`() = h^-1 *: (Q^`() \Po k).
  have E : k^`() = (h^-1)%:P by rewrite /k derivB derivZ derivX derivC subr0 alg_polyC.
  by rewrite deriv_comp E -mul_polyC mulrC.
have fwd (Q : {poly F}) : ((size Q <= m)%N /\ forall j, (j < n)%N -> Q.[s j] = x j /\ Q^`().[s j] = h * v j) ->
   (size (Q \Po k) <= m)%N /\ forall j, (j < n)%N -> (Q \Po k).[t0 + s j * h] = x j /\ (Q \Po k)^`().[t0 + s j * h] = v j.
  move=> [SQ HQ]; split=> [|j Hj]; first exact: szk.
  by have [E1 E2] := HQ j Hj; rewrite dk hornerZ !horner_comp Ek E1 E2 mulrA mulVf // mul1r.
have bwd (P : {poly F}) : ((size P <= m)%N /\ forall j, (j < n)%N -> P.[t0 + s j * h] = x j /\ P^`().[t0 + s j * h] = v j) ->
   (size (P \Po l) <= m)%N /\ forall j, (j < n)%N -> (P \Po l).[s j] = x j /\ (P \Po l)^`().[s j] = h * v j.
  move=> [SQ HQ]; split=> [|j Hj]; first exact: sz.
  by have [E1 E2] := HQ j Hj; rewrite dl hornerZ !horner_comp El E1 E2.
have inj1 (Q : {poly F}) : (Q \Po k) \Po l = Q by rewrite -comp_polyA kl comp_polyXr.
have inj2 (Q : {poly F}) : (Q \Po l) \Po k = Q by rewrite -comp_polyA lk comp_polyXr.
split=> -[Q [HQ UQ]].
  by exists (Q \Po k); split=> [|P /bwd /UQ ->]; [apply: fwd|rewrite inj2].
by exists (Q \Po l); split=> [|P /fwd /UQ ->]; [apply: bwd|rewrite inj1].
Qed.
End Nlp.
