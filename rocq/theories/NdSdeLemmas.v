(** Broadcasting in general, and the array operations of NdSdeModel. *)
From Coq Require Import String Ascii.
From Verif Require Import Py.
From mathcomp Require Import all_ssreflect all_algebra.
From Verif Require Import KalModel NpModel NpLemmas NpOps NdSdeModel.
Set Implicit Arguments.
Unset Strict Implicit.
Unset Printing Implicit Defensive.
Import Order.TTheory GRing.Theory Num.Theory.
Local Open Scope ring_scope.

(** * Broadcasting *)

Lemma bdimC m n : bdim m n = bdim n m.
Proof.
rewrite /bdim [n == m]eq_sym; case: eqP => [->//|ne].
by case: (m =P 1%N) => [m1|_]; case: (n =P 1%N) => [n1|_] //; case: ne; rewrite m1 n1.
Qed.
Lemma bcast_revC s t : bcast_rev s t = bcast_rev t s.
Proof. by elim: s t => [|m s IH] [|n t] //=; rewrite bdimC IH. Qed.
Lemma bcastC s t : bcast s t = bcast t s.
Proof. by rewrite /bcast bcast_revC. Qed.

Lemma bdim_le m n d : bdim m n = Ok d -> m = d \/ m = 1%N.
Proof. by rewrite /bdim; case: eqP => [_ [->]|_]; [left|case: eqP => [->|_]; [right|case: eqP => // _ [->]; left]]. Qed.

(** Broadcasting of reversed shapes: where it is defined the result dominates. *)
Fixpoint dom (s b : seq nat) : bool :=
  match s, b with
  | [::], _ => true
  | m :: s', d :: b' => ((m == d) || (m == 1%N)) && dom s' b'
  | _, _ => false
  end.
Lemma dom_refl s : dom s s.
Proof. by elim: s => //= n s ->; rewrite eqxx. Qed.
Lemma bcast_rev_dom s t b : bcast_rev s t = Ok b -> dom s b.
Proof.
elim: s t b => [|m s IH] [|n t] b //=; first by case=> <- /=; rewrite eqxx dom_refl.
case E: (bdim m n) => [d|//] /=; case E': (bcast_rev s t) => [r|//] /= [<-] /=.
by rewrite (IH _ _ E') andbT; case: (bdim_le E) => ->; rewrite eqxx ?orbT.
Qed.
Lemma dom_size s b : dom s b -> (size s <= size b)%N.
Proof. by elim: s b => [|m s IH] [|d b] //= /andP[_ /IH]. Qed.
Lemma dom_bcast s b : dom s b -> bcast_rev s b = Ok b.
Proof.
elim: s b => [|m s IH] [|d b] //= /andP[H /IH ->].
by case/orP: H => /eqP ->; rewrite ?bdim_same ?bdim1l.
Qed.

(** [s] can be broadcast to [b]. *)
Definition fits (s b : seq nat) : bool := dom (rev s) (rev b).
Lemma bcast_fits s t b : bcast s t = Ok b -> fits s b /\ fits t b.
Proof.
rewrite /bcast; case E: (bcast_rev _ _) => [r|//] /= [<-]; rewrite /fits revK; split.
  exact: bcast_rev_dom E.
by apply: (bcast_rev_dom (t := rev s)); rewrite bcast_revC.
Qed.
Lemma fits_bcast s b : fits s b -> bcast s b = Ok b.
Proof. by move=> H; rewrite /bcast dom_bcast // /= revK. Qed.
Lemma fits_bcast' s b : fits s b -> bcast b s = Ok b.
Proof. by rewrite bcastC; apply: fits_bcast. Qed.
Lemma fits_size s b : fits s b -> (size s <= size b)%N.
Proof. by move/dom_size; rewrite !size_rev. Qed.
Lemma fits_refl s : fits s s.
Proof. exact: dom_refl. Qed.
Lemma dom_trans s t b : dom s t -> dom t b -> dom s b.
Proof.
elim: s t b => [|m s IH] [|n t] [|d b] //= /andP[H1 /IH H] /andP[H2 /H ->]; rewrite andbT.
by case/orP: H1 => /eqP ->; rewrite ?eqxx ?orbT.
Qed.
Lemma fits_trans s t b : fits s t -> fits t b -> fits s b.
Proof. exact: dom_trans. Qed.
Lemma bcast_size s t b : bcast s t = Ok b -> size b = maxn (size s) (size t).
Proof.
rewrite /bcast -(size_rev s) -(size_rev t); case E: (bcast_rev _ _) => [r|//] /= [<-]; rewrite size_rev.
elim: (rev s) (rev t) r E => [|m s' IH] [|n t'] r //=; try by case=> <-; rewrite ?max0n ?maxn0.
by case: (bdim m n) => [d|//] /=; case E': (bcast_rev s' t') => [r'|//] /= [<-] /=; rewrite (IH _ _ E') maxnSS.
Qed.

(** The same last axes. *)
Lemma bcast_rev_cat c s t : bcast_rev (c ++ s) (c ++ t) = let* b := bcast_rev s t in Ok (c ++ b).
Proof. by elim: c => [|n c IH] /=; [case: (bcast_rev s t) | rewrite bdim_same IH /=; case: (bcast_rev s t)]. Qed.
Lemma bcast_cat s t c : bcast (s ++ c) (t ++ c) = let* b := bcast s t in Ok (b ++ c).
Proof.
rewrite /bcast !rev_cat bcast_rev_cat; case: (bcast_rev _ _) => //= b.
by rewrite rev_cat revK.
Qed.

(** New axes in front. *)
Lemma bcast_rev_ones k s t : (size s + k <= size t)%N -> bcast_rev (s ++ nseq k 1%N) t = bcast_rev s t.
Proof.
elim: s t => [|m s IH] [|n t] //=; last by rewrite addSn ltnS => /IH ->.
- by case: k.
- rewrite add0n -[(size t).+1]/(size (n :: t)); elim: k (n :: t) => [|k IH] [|d u] //= H; rewrite bdim1l /=.
  by have := IH u H => ->.
Qed.
Lemma rev_nseq T k (x : T) : rev (nseq k x) = nseq k x.
Proof. by elim: k => // k IH; rewrite -[in LHS]addn1 nseqD rev_cat IH. Qed.
Lemma bcast_prepend k s t : (k + size s <= size t)%N -> bcast (nseq k 1%N ++ s) t = bcast s t.
Proof.
move=> H; rewrite /bcast rev_cat rev_nseq bcast_rev_ones //.
by rewrite !size_rev addnC.
Qed.

(** * Indices *)

Definition bix1 (p : nat * nat) : nat := if p.1 == 1%N then 0%N else p.2.
Lemma zip_takel (s e : seq nat) : zip s (take (size s) e) = zip s e.
Proof. by elim: s e => [|m s IH] [|k e] //=; rewrite IH. Qed.
Lemma bidx_rev s e : (size s <= size e)%N -> bidx s e = rev (map bix1 (zip (rev s) (rev e))).
Proof.
move=> H; rewrite /bidx -[zip (rev s) (rev e)]zip_takel size_rev.
have -> : take (size s) (rev e) = rev (drop (size e - size s) e) by rewrite rev_drop subKn.
by rewrite -rev_zip ?size_drop ?subKn // map_rev revK.
Qed.
Lemma size_bidx s e : (size s <= size e)%N -> size (bidx s e) = size s.
Proof. by move=> H; rewrite /bidx size_map size_zip size_drop subKn // minnn. Qed.

Lemma inb_rev s i : inb (rev s) (rev i) = inb s i.
Proof.
have H t j : inb t j -> inb (rev t) (rev j).
  elim: t j => [|n t IH] [|k j] //= /andP[Hk /IH Hj]; rewrite !rev_cons -!cats1 inb_cat //=.
  by rewrite Hk.
by apply/idP/idP => [/H|/H //]; rewrite !revK.
Qed.
Lemma dom_inb s b e : dom s b -> inb b e -> inb s (map bix1 (zip s e)).
Proof.
elim: s b e => [|m s IH] [|d b] [|k e] //= /andP[H1 H] /andP[Hk He].
rewrite (IH _ _ H He) andbT /bix1 /=; case: eqP => [->//|m1].
by case/orP: H1 => /eqP E; [rewrite E|case: m1].
Qed.
Lemma fits_inb s b e : fits s b -> inb b e -> inb s (bidx s e).
Proof.
move=> H He; rewrite bidx_rev ?(inb_size He) ?fits_size // -inb_rev revK.
by apply: dom_inb H _; rewrite inb_rev.
Qed.

Lemma bidx_cat s c e i : (size s <= size e)%N -> inb c i -> bidx (s ++ c) (e ++ i) = bidx s e ++ i.
Proof.
move=> H Hi; rewrite !bidx_rev ?size_cat ?(inb_size Hi) ?leq_add2r //.
rewrite !rev_cat zip_cat ?size_rev ?(inb_size Hi) // map_cat rev_cat; congr (_ ++ _).
by rewrite -bidx_rev ?(inb_size Hi) // bidx_id.
Qed.

(** * Operations *)
Section Ops.
Variable F : rcfType.
Local Notation nd := (nd F).

Lemma map2_bcast (f : F -> F -> F) (A B : nd) s t c b : shape A = s ++ c -> shape B = t ++ c -> bcast s t = Ok b ->
  exists C, map2 f A B = Ok C /\ shape C = b ++ c /\
    forall e i, inb b e -> inb c i -> get C (e ++ i) = f (get A (bidx s e ++ i)) (get B (bidx t e ++ i)).
Proof.
move=> HA HB Hb; have [Fs Ft] := bcast_fits Hb; rewrite /map2 HA HB bcast_cat Hb /=.
eexists; split=> //; split=> // e i He Hi /=.
by rewrite !bidx_cat ?(inb_size He) ?fits_size.
Qed.

Lemma einsum_dot (A B : nd) s t n b : shape A = s ++ [:: n] -> shape B = t ++ [:: n] -> bcast s t = Ok b ->
  exists C, einsum "...i,...i" [:: A; B] = Ok C /\ shape C = b /\
    forall e, inb b e -> get C e = \sum_(k < n) get A (bidx s e ++ [:: nat_of_ord k]) * get B (bidx t e ++ [:: nat_of_ord k]).
Proof.
move=> HA HB Hb; rewrite /einsum.
have -> : parse "...i,...i" = ([:: Sub [::] true [:: "i"%char]; Sub [::] true [:: "i"%char]], None) by vm_compute.
rewrite /= /ell_rank HA HB !size_cat !addn1 /= !subn1 /=.
rewrite /ell_dims /= !drop0 !HA !HB !take_size_cat // bcast_nil /= Hb /=.
rewrite /pre_dims /post_dims /= !take0 !add0n !HA !HB !drop_size_cat //= bdim1r /= bdim_same /=.
have [Fs Ft] := bcast_fits Hb.
eexists; split; first by []; split; first by rewrite /= cats0.
move=> e He /=; rewrite drop0 -(inb_size He) take_size drop_size /=; apply: eq_bigr => k _.
rewrite /operand /= /ell_dims /pre_dims /post_dims /= !take0 !add0n !drop0 !HA !HB !drop_size_cat // !take_size_cat //= /label_index /=.
by case: (n =P 1%N) k => [->|_] [k Hk] //=; move: Hk; rewrite ltnS leqn0 => /eqP ->.
Qed.

Lemma einsum_mv (A B : nd) s t m n b : shape A = s ++ [:: m; n] -> shape B = t ++ [:: n] -> bcast s t = Ok b ->
  exists C, einsum "...ij,...j" [:: A; B] = Ok C /\ shape C = b ++ [:: m] /\
    forall e i, inb b e -> (i < m)%N ->
      get C (e ++ [:: i]) = \sum_(k < n) get A (bidx s e ++ [:: i; nat_of_ord k]) * get B (bidx t e ++ [:: nat_of_ord k]).
Proof.
move=> HA HB Hb; rewrite /einsum.
have -> : parse "...ij,...j" = ([:: Sub [::] true [:: "i"%char; "j"%char]; Sub [::] true [:: "j"%char]], None) by vm_compute.
rewrite /= /ell_rank HA HB !size_cat !addn1 !addn2 /= !subn1 !subn2 /=.
rewrite /ell_dims /= !drop0 !HA !HB !take_size_cat // bcast_nil /= Hb /=.
rewrite /pre_dims /post_dims /= !take0 !add0n !HA !HB !drop_size_cat //= bdim1r /= bdim1r /= bdim_same /=.
have [Fs Ft] := bcast_fits Hb.
eexists; split; first by []; split; first by [].
move=> e i He Hi; have Sb := inb_size He.
have E1 : drop (size b) (e ++ [:: i]) = [:: i] by rewrite drop_size_cat.
have E2 : take (size b) (e ++ [:: i]) = e by rewrite take_size_cat.
cbn [get]; rewrite drop0 take0 E1 E2; apply: eq_bigr => k _.
rewrite /operand /= /ell_dims /pre_dims /post_dims /= !take0 !add0n !drop0 !HA !HB !drop_size_cat // !take_size_cat //= /label_index /=.
have -> : (if m == 1%N then 0%N else i) = i by case: (m =P 1%N) Hi => // ->; rewrite ltnS leqn0 => /eqP ->.
by case: (n =P 1%N) k => [->|_] [k Hk] //=; move: Hk; rewrite ltnS leqn0 => /eqP ->.
Qed.

Lemma squareE (A : nd) s n : shape A = s ++ [:: n; n] -> square A = Ok (size s, n).
Proof. by move=> HA; rewrite /square HA size_cat addnK drop_size_cat // eqxx. Qed.

Lemma nd_detE (A : nd) s n : shape A = s ++ [:: n; n] ->
  exists C, nd_det A = Ok C /\ shape C = s /\ forall e, get C e = \det (mx_at n n A e).
Proof. by move=> HA; rewrite /nd_det (squareE HA) /= HA take_size_cat //; eexists; split. Qed.

(** A stack of vectors. *)
Lemma nd_solveE (A B : nd) s t n b : shape A = s ++ [:: n; n] -> shape B = t ++ [:: n] -> size t = size s -> bcast s t = Ok b ->
  match nd_solve A B with
  | Ok C => shape C = b ++ [:: n] /\ forall e, inb b e ->
      mx_at n n A (bidx s e) \in unitmx /\
      forall i : 'I_n, get C (e ++ [:: nat_of_ord i])
        = (invmx (mx_at n n A (bidx s e)) *m \col_j get B (bidx t e ++ [:: nat_of_ord j])) i 0
  | Err er => er = LinAlgError /\ exists2 e, inb b e & mx_at n n A (bidx s e) \notin unitmx
  end.
Proof.
move=> HA HB Est Hb; rewrite /nd_solve (squareE HA) /= HB HA size_cat addn1 -Est eqxx last_cat eqxx /=.
rewrite !(take_size_cat _ (erefl (size t))) [take (size t) (s ++ _)]take_size_cat // Hb /=.
case E: (mapM _ _) => [r|er] /=.
- split=> // e He; have [M EM] := mapM_ok E (etrans (mem_indices _ _) He); move: EM; rewrite /inv.
  case: ifP => // U _; split=> // i; rewrite take_size_cat ?(inb_size He) // nth_cat (inb_size He) ltnn subnn /=.
  exact: (at_natE _ i 0).
- have [e] := mapM_err E; rewrite mem_indices /inv => He; case: ifP => // U [<-].
  by split=> //; exists e => //; rewrite U.
Qed.

(** A stack of matrices. *)
Lemma nd_solve_mat (A B : nd) s t n m b : shape A = t ++ [:: n; n] -> shape B = s ++ [:: n; m] -> size t <> (size s).+1 -> bcast t s = Ok b ->
  match nd_solve A B with
  | Ok C => shape C = b ++ [:: n; m] /\ forall e, inb b e ->
      forall (i : 'I_n) (j : 'I_m), get C (e ++ [:: nat_of_ord i; nat_of_ord j])
        = (invmx (mx_at n n A (bidx t e)) *m mx_at n m B (bidx s e)) i j
  | Err er => er = LinAlgError
  end.
Proof.
move=> HA HB Est Hb; rewrite /nd_solve (squareE HA) /= HB HA size_cat addn2.
have -> : ((size s).+2 == (size t).+1) = false by apply/negbTE/eqP => -[H]; case: Est.
rewrite /= last_cat /= subn2 /= nth_cat ltnn subnn /= eqxx /=.
rewrite !(take_size_cat _ (erefl (size s))) [take (size t) (t ++ _)]take_size_cat // Hb /=.
case E: (mapM _ _) => [r|er] /=.
- split=> // e He i j; have Se := inb_size He.
  by rewrite take_size_cat // !nth_cat Se ltnn subnn ltnNge leqnSn /= subSnn at_natE.
- by have [e _] := mapM_err E; rewrite /inv; case: ifP => // _ [].
Qed.
End Ops.
