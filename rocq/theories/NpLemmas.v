(** Lemmas about the arrays of NpModel: what each operation gives at an
    index made of leading labels, an index of the stacked axes and trailing
    labels. *)
From Coq Require Import String Ascii.
From Verif Require Import Py.
From mathcomp Require Import all_ssreflect all_algebra.
From Verif Require Import KalModel NpModel.
Set Implicit Arguments.
Unset Strict Implicit.
Unset Printing Implicit Defensive.
Import Order.TTheory GRing.Theory Num.Theory.
Local Open Scope ring_scope.

(** * Indices inside a shape *)

(** [i] is a multi-index inside the shape [s]. *)
Fixpoint inb (s i : seq nat) : bool :=
  match s, i with
  | [::], [::] => true
  | n :: s', k :: i' => (k < n)%N && inb s' i'
  | _, _ => false
  end.

Lemma inb_size s i : inb s i -> size i = size s.
Proof. by elim: s i => [|n s IH] [|k i] //= /andP[_ /IH ->]. Qed.

Lemma inb_cat s t i j : inb s i -> inb t j -> inb (s ++ t) (i ++ j).
Proof. by elim: s i => [|n s IH] [|k i] //= /andP[-> /IH H] /H. Qed.

Lemma inb_cat_inv s t i j : size i = size s -> inb (s ++ t) (i ++ j) -> inb s i /\ inb t j.
Proof.
elim: s i => [|n s IH] [|k i] //= [/IH H] /andP[-> /H [-> ->]].
by [].
Qed.

Lemma mem_indices s i : (i \in indices s) = inb s i.
Proof.
elim: s i => [|n s IH] i /=; first by case: i.
apply/flattenP/idP.
- case=> l /mapP[k]; rewrite mem_iota /= add0n => Hk ->.
  by case/mapP=> r; rewrite IH => Hr -> /=; rewrite Hk.
- case: i => [//|k i] /andP[Hk Hi].
  exists [seq k :: r | r <- indices s].
    by apply/mapP; exists k; rewrite // mem_iota add0n.
  by apply/mapP; exists i; rewrite // IH.
Qed.

Lemma bidx_id s i : inb s i -> bidx s i = i.
Proof.
move=> H; rewrite /bidx (inb_size H) subnn drop0.
elim: s i H => [|n s IH] [|k i] //= /andP[Hk Hi]; rewrite IH //.
by case: eqP Hk => [->|//]; case: k.
Qed.

Lemma bidx_suffix s e i : inb s i -> bidx s (e ++ i) = i.
Proof.
move=> H; rewrite /bidx size_cat (inb_size H) addnK drop_size_cat //.
rewrite -[RHS](bidx_id H) /bidx (inb_size H) subnn drop0 //.
Qed.

Lemma bidx_nil i : bidx [::] i = [::].
Proof. by rewrite /bidx; case: (drop _ _). Qed.

Lemma bdim_same n : bdim n n = Ok n.
Proof. by rewrite /bdim eqxx. Qed.
Lemma bdim1r n : bdim n 1 = Ok n.
Proof. by rewrite /bdim; case: (n == 1%N). Qed.
Lemma bdim1l n : bdim 1 n = Ok n.
Proof. by rewrite /bdim; case: eqP => [->|]. Qed.

Lemma bcast_rev_pre s t : bcast_rev (s ++ t) s = Ok (s ++ t).
Proof. by elim: s => [|n s IH] /=; [case: t | rewrite bdim_same IH]. Qed.
Lemma bcast_rev_pre' s t : bcast_rev s (s ++ t) = Ok (s ++ t).
Proof. by elim: s => [|n s IH] //=; rewrite bdim_same IH. Qed.

Lemma bcast_suffix p s : bcast (p ++ s) s = Ok (p ++ s).
Proof. by rewrite /bcast rev_cat bcast_rev_pre /= -rev_cat revK. Qed.
Lemma bcast_suffix' p s : bcast s (p ++ s) = Ok (p ++ s).
Proof. by rewrite /bcast rev_cat bcast_rev_pre' /= -rev_cat revK. Qed.
Lemma bcast_same s : bcast s s = Ok s.
Proof. exact: (bcast_suffix [::] s). Qed.
Lemma bcast_nil s : bcast s [::] = Ok s.
Proof. by rewrite -{1}(cats0 s) bcast_suffix cats0. Qed.
Lemma bcast_nil' s : bcast [::] s = Ok s.
Proof. by rewrite -{1}(cats0 s) bcast_suffix' cats0. Qed.

Section Arrays.
Variable F : rcfType.
Local Notation nd := (nd F).

(** * Stacks of tensors *)

(** Tensors of shape [cs]. *)
Fixpoint arr (cs : seq nat) : Type :=
  match cs with
  | [::] => F
  | n :: cs' => 'I_n -> arr cs'
  end.
Fixpoint agree (cs : seq nat) (g : seq nat -> F) : arr cs -> Prop :=
  match cs with
  | [::] => fun v => g [::] = v
  | n :: cs' => fun t => forall i : 'I_n, agree (fun c => g (nat_of_ord i :: c)) (t i)
  end.
Fixpoint eqarr (cs : seq nat) : arr cs -> arr cs -> Prop :=
  match cs with
  | [::] => fun u v => u = v
  | n :: cs' => fun t u => forall i : 'I_n, eqarr (t i) (u i)
  end.
Fixpoint amap1 (f : F -> F) (cs : seq nat) : arr cs -> arr cs :=
  match cs with
  | [::] => fun u => f u
  | n :: cs' => fun t i => amap1 f (t i)
  end.
Fixpoint amap2 (f : F -> F -> F) (cs : seq nat) : arr cs -> arr cs -> arr cs :=
  match cs with
  | [::] => fun u v => f u v
  | n :: cs' => fun t u i => amap2 f (t i) (u i)
  end.

(** The array [A] holds, at each index [e] inside [b], the tensor [t e]: the
    axes [pre] come before those of [b], the axes [cs] after. *)
Definition rep (pre b cs : seq nat) (A : nd) (t : seq nat -> arr (pre ++ cs)) : Prop :=
  shape A = pre ++ b ++ cs /\
  forall e, inb b e -> agree (fun c => get A (take (size pre) c ++ e ++ drop (size pre) c)) (t e).

Lemma agree_ext cs (g g' : seq nat -> F) (t : arr cs) : (forall c, inb cs c -> g c = g' c) -> agree g t -> agree g' t.
Proof.
elim: cs g g' t => [|n cs IH] g g' t H /=; first by rewrite H.
move=> Hg i; apply: IH (Hg i) => c Hc; apply: H.
by rewrite /= ltn_ord.
Qed.

Lemma agree_eq cs (g : seq nat -> F) (t u : arr cs) : agree g t -> eqarr t u -> agree g u.
Proof.
elim: cs g t u => [|n cs IH] g t u /=; first by move=> -> ->.
by move=> H E i; apply: IH (H i) (E i).
Qed.

Lemma agree_map1 f cs (g : seq nat -> F) (t : arr cs) : agree g t -> agree (fun c => f (g c)) (amap1 f t).
Proof.
elim: cs g t => [|n cs IH] g t /=; first by move=> ->.
by move=> H i; apply: (IH _ _ (H i)).
Qed.

Lemma agree_map2 f cs (g h : seq nat -> F) (t u : arr cs) : agree g t -> agree h u -> agree (fun c => f (g c) (h c)) (amap2 f t u).
Proof.
elim: cs g h t u => [|n cs IH] g h t u /=; first by move=> -> ->.
by move=> Hg Hh i; apply: (IH _ _ _ _ (Hg i) (Hh i)).
Qed.

Lemma agree_at cs (g : seq nat -> F) (t u : arr cs) : agree g t -> agree g u -> eqarr t u.
Proof.
elim: cs g t u => [|n cs IH] g t u /=; first by move=> <- <-.
by move=> Ht Hu i; apply: IH (Ht i) (Hu i).
Qed.

Lemma eqarr_refl cs (t : arr cs) : eqarr t t.
Proof. by elim: cs t => [|n cs IH] t //= i; apply: IH. Qed.

Variable b : seq nat.

Lemma rep_ext pre cs A (t u : seq nat -> arr (pre ++ cs)) :
  rep b A t -> (forall e, inb b e -> eqarr (t e) (u e)) -> rep b A u.
Proof. by case=> HS H E; split=> // e He; apply: agree_eq (H e He) (E e He). Qed.

(** * Element-wise operations *)

Lemma inb_split pre cs c : inb (pre ++ cs) c -> inb pre (take (size pre) c) /\ inb cs (drop (size pre) c).
Proof.
move=> H; have Hs := inb_size H.
apply: inb_cat_inv; last by rewrite cat_take_drop.
by rewrite size_takel // Hs size_cat leq_addr.
Qed.

Lemma inb_full pre cs e c : inb b e -> inb (pre ++ cs) c -> inb (pre ++ b ++ cs) (take (size pre) c ++ e ++ drop (size pre) c).
Proof. by move=> He /inb_split[H1 H2]; rewrite !inb_cat. Qed.

Lemma rep_map1 f pre cs A (t v : seq nat -> arr (pre ++ cs)) :
  rep b A t -> (forall e, inb b e -> eqarr (amap1 f (t e)) (v e)) -> rep b (map1 f A) v.
Proof.
case=> HS H E; split=> //= e He.
by apply: agree_eq (E e He); exact: (agree_map1 f (H e He)).
Qed.

(** Same shape. *)
Lemma rep_map2 f pre cs A B (t u v : seq nat -> arr (pre ++ cs)) :
  rep b A t -> rep b B u -> (forall e, inb b e -> eqarr (amap2 f (t e) (u e)) (v e)) ->
  exists C, map2 f A B = Ok C /\ rep b C v.
Proof.
move=> [HA H1] [HB H2] E; rewrite /map2 HA HB bcast_same /=; eexists; split=> //.
split=> //= e He; apply: agree_eq (E e He).
apply: agree_ext (agree_map2 f (H1 e He) (H2 e He)) => c Hc /=.
by rewrite !bidx_id // inb_full.
Qed.

Lemma rep_imap2 f pre cs A B (t u v : seq nat -> arr (pre ++ cs)) :
  rep b A t -> rep b B u -> (forall e, inb b e -> eqarr (amap2 f (t e) (u e)) (v e)) ->
  exists C, imap2 f A B = Ok C /\ rep b C v.
Proof.
move=> HA HB E; have [C [EC HC]] := rep_map2 HA HB E.
by exists C; split=> //; rewrite /imap2 EC /= (proj1 HA) (proj1 HC) eqxx.
Qed.

(** The second operand lacks the leading axis. *)
Lemma rep_map2_lead f n cs A B (t : seq nat -> arr ([:: n] ++ cs)) (u : seq nat -> arr ([::] ++ cs)) (v : seq nat -> arr ([:: n] ++ cs)) :
  rep (pre := [:: n]) b A t -> rep (pre := [::]) b B u ->
  (forall e, inb b e -> forall i, eqarr (amap2 f (t e i) (u e)) (v e i)) ->
  exists C, map2 f A B = Ok C /\ rep (pre := [:: n]) b C v.
Proof.
move=> [HA H1] [HB H2] E; rewrite /map2 HA HB bcast_suffix /=; eexists; split=> //.
split=> //= e He i; apply: agree_eq (E e He i).
apply: agree_ext (agree_map2 f (H1 e He i) (H2 e He)) => c Hc /=.
have Hd : inb (b ++ cs) (e ++ c) by rewrite inb_cat.
by rewrite take0 drop0 /= (bidx_id (s := n :: b ++ cs)) /= ?ltn_ord // (bidx_suffix [:: nat_of_ord i]).
Qed.

(** The second operand lacks the stacked axes. *)
Lemma rep_map2_const f cs A B (t v : seq nat -> arr ([::] ++ cs)) (u : arr ([::] ++ cs)) :
  rep (pre := [::]) b A t -> rep (pre := [::]) [::] B (fun=> u) ->
  (forall e, inb b e -> eqarr (amap2 f (t e) u) (v e)) ->
  exists C, map2 f A B = Ok C /\ rep (pre := [::]) b C v.
Proof.
move=> [HA H1] [HB H2] E; rewrite /map2 HA HB /= bcast_suffix /=; eexists; split=> //.
split=> //= e He; apply: agree_eq (E e He).
apply: agree_ext (agree_map2 f (H1 e He) (H2 [::] isT)) => c Hc /=.
by rewrite take0 drop0 /= (bidx_id (inb_cat He Hc)) (bidx_suffix e Hc).
Qed.
Lemma rep_map2_const' f cs A B (t v : seq nat -> arr ([::] ++ cs)) (u : arr ([::] ++ cs)) :
  rep (pre := [::]) b A t -> rep (pre := [::]) [::] B (fun=> u) ->
  (forall e, inb b e -> eqarr (amap2 f u (t e)) (v e)) ->
  exists C, map2 f B A = Ok C /\ rep (pre := [::]) b C v.
Proof.
move=> [HA H1] [HB H2] E; rewrite /map2 HA HB /= bcast_suffix' /=; eexists; split=> //.
split=> //= e He; apply: agree_eq (E e He).
apply: agree_ext (agree_map2 f (H2 [::] isT) (H1 e He)) => c Hc /=.
by rewrite take0 drop0 /= (bidx_id (inb_cat He Hc)) (bidx_suffix e Hc).
Qed.

(** * [np.einsum] *)

Definition ell (f : bool) (s : seq nat) : seq nat := if f then s else [::].

(** The shapes of the operands: axes of the sizes [D] of the labels and,
    where [fl] says so, the stacked axes. *)
Fixpoint shapes_ok (D : seq (ascii * nat)) (ins : seq sub) (fl : seq bool) (ops : seq nd) : Prop :=
  match ins, fl, ops with
  | [::], [::], [::] => True
  | x :: ins', f :: fl', A :: ops' =>
      shape A = [seq lookup c D | c <- s_pre x] ++ ell f b ++ [seq lookup c D | c <- s_post x]
      /\ (f ==> s_ell x) /\ shapes_ok D ins' fl' ops'
  | _, _, _ => False
  end.

(** Values of the operands. *)
Definition operand' (env : seq (ascii * nat)) (e : seq nat) (x : sub) (f : bool) (A : nd) : F :=
  get A ([seq lookup c env | c <- s_pre x] ++ ell f e ++ [seq lookup c env | c <- s_post x]).
Fixpoint product' (acc : F) (env : seq (ascii * nat)) (e : seq nat) (ins : seq sub) (fl : seq bool) (ops : seq nd) : F :=
  match ins, fl, ops with
  | x :: ins', f :: fl', A :: ops' => product' (acc * operand' env e x f A) env e ins' fl' ops'
  | _, _, _ => acc
  end.
Definition product1 (env : seq (ascii * nat)) (e : seq nat) (ins : seq sub) (fl : seq bool) (ops : seq nd) : F :=
  match ins, fl, ops with
  | x :: ins', f :: fl', A :: ops' => product' (operand' env e x f A) env e ins' fl' ops'
  | _, _, _ => 1
  end.

(** What a string of subscripts says: operands, output, summed labels. *)
Definition all_labels (ins : seq sub) : seq ascii := flatten [seq s_labels x | x <- ins].
Definition plan (s : string) : seq sub * sub * seq ascii :=
  let ins := (parse s).1 in
  let out := match (parse s).2 with Some o => o | None => implicit_out ins end in
  (ins, out, [seq c <- sorted_labels (all_labels ins) | ~~ occurs c (s_labels out)]).
Definition plan_ok (s : string) : bool :=
  let ins := (plan s).1.1 in
  let out := (plan s).1.2 in
  let summed := (plan s).2 in
  [&& s_ell out,
      all (fun c => occurs c (all_labels ins)) (sorted_labels (all_labels ins)),
      all (fun c => occurs c (sorted_labels (all_labels ins))) (s_labels out) &
      all (fun x => all (fun c => occurs c (summed ++ s_labels out)) (s_labels x)) ins].

Section Einsum.
Variable D : seq (ascii * nat).

Lemma ell_rank_ok x f (A : nd) :
  shape A = [seq lookup c D | c <- s_pre x] ++ ell f b ++ [seq lookup c D | c <- s_post x] ->
  f ==> s_ell x -> ell_rank x A = Ok (size (ell f b)).
Proof.
move=> HA Hf; rewrite /ell_rank HA !size_cat !size_map.
have E : (size (s_pre x) + (size (ell f b) + size (s_post x)) = size (ell f b) + (size (s_pre x) + size (s_post x)))%N.
  by rewrite addnCA.
rewrite E; case: (s_ell x) Hf => [_|]; first by rewrite leq_addl addnK.
by case: f HA E => //= _ _ _; rewrite add0n eqxx.
Qed.

Lemma ranks_ok ins fl ops : shapes_ok D ins fl ops ->
  mapM (fun p => ell_rank p.1 p.2) (zip ins ops) = Ok [seq size (ell f b) | f <- fl].
Proof.
elim: ins fl ops => [|x ins IH] [|f fl] [|A ops] //= [HA [Hf H]].
by rewrite (ell_rank_ok HA Hf) /= (IH _ _ H).
Qed.

Lemma pre_dimsE x f (A : nd) :
  shape A = [seq lookup c D | c <- s_pre x] ++ ell f b ++ [seq lookup c D | c <- s_post x] ->
  pre_dims x A = [seq lookup c D | c <- s_pre x].
Proof. by move=> HA; rewrite /pre_dims HA take_size_cat // size_map. Qed.
Lemma ell_dimsE x f (A : nd) :
  shape A = [seq lookup c D | c <- s_pre x] ++ ell f b ++ [seq lookup c D | c <- s_post x] ->
  ell_dims x (size (ell f b)) A = ell f b.
Proof. by move=> HA; rewrite /ell_dims HA drop_size_cat ?size_map // take_size_cat. Qed.
Lemma post_dimsE x f (A : nd) :
  shape A = [seq lookup c D | c <- s_pre x] ++ ell f b ++ [seq lookup c D | c <- s_post x] ->
  post_dims x (size (ell f b)) A = [seq lookup c D | c <- s_post x].
Proof. by move=> HA; rewrite /post_dims HA catA drop_size_cat // size_cat size_map. Qed.

Lemma bases_ok ins fl ops : shapes_ok D ins fl ops ->
  foldr (fun p acc => let* b := acc in bcast (ell_dims p.1 p.2.1 p.2.2) b) (Ok [::])
    (zip ins (zip [seq size (ell f b) | f <- fl] ops)) = Ok (ell (has id fl) b).
Proof.
elim: ins fl ops => [|x ins IH] [|f fl] [|A ops] //= [HA [Hf H]].
rewrite (IH _ _ H) /= (ell_dimsE HA).
by case: f {HA Hf}; case: (has id fl) => /=; rewrite ?bcast_same ?bcast_nil ?bcast_nil'.
Qed.

Definition sizes_of (ps : seq (sub * (nat * nd))) : seq (ascii * nat) :=
  flatten [seq zip (s_labels p.1) (pre_dims p.1 p.2.2 ++ post_dims p.1 p.2.1 p.2.2) | p <- ps].

Lemma sizes_ok ins fl ops : shapes_ok D ins fl ops ->
  sizes_of (zip ins (zip [seq size (ell f b) | f <- fl] ops)) = [seq (c, lookup c D) | c <- all_labels ins].
Proof.
elim: ins fl ops => [|x ins IH] [|f fl] [|A ops] //= [HA [Hf H]].
rewrite /sizes_of /all_labels /= map_cat -[X in _ = _ ++ X](IH _ _ H); congr (_ ++ _).
rewrite (pre_dimsE HA) (post_dimsE HA) -map_cat -/(s_labels x).
by elim: (s_labels x) => //= c l ->.
Qed.

Lemma dim_of_ok c l : dim_of c [seq (a, lookup a D) | a <- l] = Ok (if occurs c l then lookup c D else 1%N).
Proof.
elim: l => [|a l IH] //=; rewrite IH /=.
case E: (Ascii.eqb c a) => //=.
move/Ascii.eqb_eq: E => <-; case: (occurs c l); by rewrite ?bdim_same ?bdim1r.
Qed.

Lemma dims_ok l ls : all (fun c => occurs c l) ls ->
  mapM (fun c => let* d := dim_of c [seq (a, lookup a D) | a <- l] in Ok (c, d)) ls = Ok [seq (c, lookup c D) | c <- ls].
Proof.
elim: ls => [|c ls IH] //= /andP[Hc /IH ->].
by rewrite dim_of_ok /= Hc.
Qed.

Lemma lookup_map c ls : occurs c ls -> lookup c [seq (a, lookup a D) | a <- ls] = lookup c D.
Proof.
elim: ls => [|a ls IH] //=; case E: (Ascii.eqb c a) => //= _.
by move/Ascii.eqb_eq: E => ->.
Qed.

(** Values of labels inside their sizes. *)
Definition envok (L : seq ascii) (env : seq (ascii * nat)) : Prop :=
  forall c, occurs c L -> (lookup c env < lookup c D)%N.

Lemma sums_ext summed L env (f g : seq (ascii * nat) -> F) :
  envok L env -> (forall env', envok (summed ++ L) env' -> f env' = g env') ->
  sums [seq (c, lookup c D) | c <- summed] f env = sums [seq (c, lookup c D) | c <- summed] g env.
Proof.
elim: summed L env => [|a l IH] L env Henv H /=; first exact: H.
apply: eq_bigr => k _; apply: (IH (a :: L)).
- move=> c /=; case E: (Ascii.eqb c a) => /=; last exact: Henv.
  by move/Ascii.eqb_eq: E => ->; rewrite ltn_ord.
- move=> env' He; apply: H => c; rewrite /= /occurs has_cat => Hc; apply: He.
  rewrite /occurs has_cat /=; case/or3P: Hc => ->; rewrite ?orbT //.
Qed.

Lemma label_indexE L env ls : envok L env -> all (fun c => occurs c L) ls ->
  label_index ls [seq lookup c D | c <- ls] env = [seq lookup c env | c <- ls].
Proof.
move=> He; elim: ls => [|c ls IH] //= /andP[Hc /IH <-].
rewrite /label_index /=; congr (_ :: _).
case: eqP => // E; move: (He c Hc); rewrite E; by case: (lookup c env).
Qed.

Lemma operandE L env e x f (A : nd) : envok L env -> all (fun c => occurs c L) (s_labels x) -> inb b e ->
  shape A = [seq lookup c D | c <- s_pre x] ++ ell f b ++ [seq lookup c D | c <- s_post x] ->
  operand env e (x, (size (ell f b), A)) = operand' env e x f A.
Proof.
move=> Henv; rewrite all_cat => /andP[H1 H2] He HA; rewrite /operand /operand' /=.
rewrite (pre_dimsE HA) (post_dimsE HA) (ell_dimsE HA) (label_indexE Henv H1) (label_indexE Henv H2).
by case: f {HA} => /=; [rewrite bidx_id|rewrite bidx_nil].
Qed.

Lemma productE L env e ins fl ops : envok L env -> inb b e -> shapes_ok D ins fl ops ->
  all (fun x => all (fun c => occurs c L) (s_labels x)) ins ->
  product env e (zip ins (zip [seq size (ell f b) | f <- fl] ops)) = product1 env e ins fl ops.
Proof.
move=> Henv He; case: ins fl ops => [|x ins] [|f fl] [|A ops] //= [HA [_ H]] /andP[Hx Hins].
rewrite (operandE Henv Hx He HA); move: (operand' _ _ _ _ _) => a.
elim: ins fl ops a H Hins => [|x' ins IH] [|f' fl] [|A' ops] a //= [HA' [_ H]] /andP[Hx' Hins].
by rewrite (operandE Henv Hx' He HA') IH.
Qed.

Lemma zip_lookup l v c : inb [seq lookup a D | a <- l] v -> occurs c l -> (lookup c (zip l v) < lookup c D)%N.
Proof.
elim: l v => [|a l IH] [|k v] //= /andP[Hk Hv].
case E: (Ascii.eqb c a) => /=; last exact: IH.
by move/Ascii.eqb_eq: E => ->.
Qed.

Theorem einsum_rep s fl ops pre cs ins out summed (v : seq nat -> arr (pre ++ cs)) :
  plan s = (ins, out, summed) -> plan_ok s -> has id fl ->
  [seq lookup c D | c <- s_pre out] = pre -> [seq lookup c D | c <- s_post out] = cs ->
  shapes_ok D ins fl ops ->
  (forall e, inb b e -> agree (fun c => sums [seq (a, lookup a D) | a <- summed] (fun env => product1 env e ins fl ops) (zip (s_labels out) c)) (v e)) ->
  exists C, einsum s ops = Ok C /\ rep b C v.
Proof.
move=> Hp; rewrite /plan_ok Hp /= => /and4P[Hell Hl Hd Hc] Hfl Epre Ecs Hs Hv.
move: Hp; rewrite /plan /einsum; case: (parse s) => ins' oo /=.
move: (match oo with Some _ => _ | None => _ end) => out' -[Eins Eout Esum]; subst ins' out' summed.
have Hsz : size ins = size ops by elim: (ins) (fl) (ops) Hs => [|x l IH] [|f fl'] [|A ops'] //= [_ [_ /IH ->]].
rewrite Hsz eqxx /= (ranks_ok Hs) /= (bases_ok Hs) Hfl /=.
rewrite Hell /= -/(sizes_of _) (sizes_ok Hs) -/(all_labels ins) (dims_ok Hl) /=.
eexists; split; first by [].
have Edim l : all (fun c => occurs c (sorted_labels (all_labels ins))) l ->
    [seq lookup c [seq (a, lookup a D) | a <- sorted_labels (all_labels ins)] | c <- l] = [seq lookup c D | c <- l].
  by elim: l => [|c l IH] //= /andP[/lookup_map -> /IH ->].
move: (Hd); rewrite /s_labels all_cat => /andP[Hd1 Hd2].
split; first by rewrite /= !Edim // Epre Ecs.
move=> e He; apply: agree_ext (Hv e He) => c Hin.
case: (inb_split Hin) => Hi1 Hi2.
have S1 : size (take (size pre) c) = size (s_pre out) by rewrite (inb_size Hi1) -Epre size_map.
rewrite /= take_size_cat // [drop (size (s_pre out)) _]drop_size_cat // -(inb_size He) take_size_cat //.
rewrite -S1 -size_cat catA drop_size_cat // cat_take_drop.
rewrite filter_map.
apply: (sums_ext (L := s_labels out)).
  by move=> a Ha; apply: zip_lookup; rewrite // /s_labels map_cat Epre Ecs.
by move=> env' He'; rewrite -(productE He' He Hs Hc).
Qed.
End Einsum.
End Arrays.

(** A sum of products given by [np.einsum]: [ds] are the sizes of the labels [ls],
    [fl] says which operands are stacked. *)
Ltac ein ls ds fl :=
  let D := eval cbv beta iota delta [zip list_ascii_of_string] in (zip (list_ascii_of_string ls) ds) in
  repeat match goal with
    | H : rep _ ?A _ |- _ => tryif is_var A then fail else (revert H; generalize A; intros ? H)
    end;
  lazymatch goal with
  | |- exists C, einsum ?s ?ops = Ok C /\ @rep ?F ?pre ?b ?cs C ?v =>
      let p := eval vm_compute in (plan s) in
      lazymatch p with
      | (?ins, ?out, ?summed) =>
          refine (@einsum_rep F b D s fl ops pre cs ins out summed v _ _ _ _ _ _ _);
          [ vm_compute; reflexivity | vm_compute; reflexivity | reflexivity | reflexivity | reflexivity
          | rewrite /=; repeat lazymatch goal with
              | |- _ /\ _ => split
              | H : rep _ ?A _ |- shape ?A = _ => exact (proj1 H)
              | |- True => exact I
              | |- _ => reflexivity
              end
          | rewrite /=; intros e He; intros; rewrite /operand' /= ]
      end
  end.
(** Replaces elements of arrays by those of the tensors they hold. *)
Ltac leaf tac :=
  lazymatch goal with
  | |- BigOp.bigop _ _ _ = _ => eapply eq_bigr; intros ? _; leaf tac
  | |- _ => tac; reflexivity
  end.
Ltac gets :=
  etransitivity;
  [ leaf ltac:(repeat match goal with
      | H : rep _ ?A _, He : is_true (inb _ ?e) |- context [get ?A _] =>
          let K := fresh in pose proof (proj2 H e He) as K; cbn [agree arr cat size take drop] in K; rewrite !K; clear K
      | H : rep [::] ?A _ |- context [get ?A _] =>
          let K := fresh in pose proof (proj2 H [::] isT) as K; cbn [agree arr cat size take drop] in K; rewrite !K; clear K
      end) | cbv beta ].
