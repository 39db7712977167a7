(** C75: Python's and NumPy's corner cases.  Indices and slices outside the
    ordinary range, exceptions of the constructors and of empty inputs, and
    registration with fewer derivatives; further parts of C55, C56 and C59. *)
From Coq Require Import String Ascii List ZArith Bool Arith Lia Reals Lra.
From Verif Require Import Py NdArray OptimModel NdLemmas DictLemmas GenModel SymModel ColModel UtilModel PropsDiff.
Import ListNotations.
Local Open Scope list_scope.
Local Open Scope nat_scope.

(** * Indices and slices *)

(** Language reference: a negative index counts from the end. *)
Definition wrapped (n : nat) (x : Z) : Z := if (x <? 0)%Z then (x + Z.of_nat n)%Z else x.

Theorem C75_index : forall X (l : list X) i,
  (forall k x, wrapped (length l) i = Z.of_nat k -> nth_error l k = Some x -> pyindex l i = Ok x) /\
  (~ (- Z.of_nat (length l) <= i < Z.of_nat (length l))%Z -> pyindex l i = Err IndexError).
Proof.
  intros X l i. unfold pyindex, wrapped. split.
  - intros k x -> H. assert (k < length l) by (apply nth_error_Some; congruence).
    destruct (Z.leb_spec 0 (Z.of_nat k)), (Z.ltb_spec (Z.of_nat k) (Z.of_nat (length l))); try lia.
    cbn [andb]. rewrite Nat2Z.id, H. reflexivity.
  - intros H. destruct (Z.ltb_spec i 0); cbn.
    + destruct (Z.leb_spec 0 (i + Z.of_nat (length l))), (Z.ltb_spec (i + Z.of_nat (length l)) (Z.of_nat (length l)));
        cbn [andb]; try reflexivity; lia.
    + destruct (Z.leb_spec 0 i), (Z.ltb_spec i (Z.of_nat (length l))); cbn [andb]; try reflexivity; lia.
Qed.

Lemma filter_none {X} (f : X -> bool) l : (forall x, In x l -> f x = false) -> filter f l = [].
Proof. induction l as [|x l IH]; simpl; intros H; [reflexivity|]. rewrite (H x), IH; auto. Qed.

Lemma slice_filter {X} (l : list X) s e : forall k,
  firstn (e - s) (skipn s l) =
  map snd (filter (fun px => (k + s <=? fst px) && (fst px <? k + e)) (combine (seq k (length l)) l)).
Proof.
  revert s e. induction l as [|x l IH]; intros s e k.
  - now rewrite skipn_nil, firstn_nil.
  - cbn [length seq combine filter fst].
    destruct s as [|s].
    + destruct e as [|e]; cbn [skipn Nat.sub].
      * destruct (Nat.leb_spec (k + 0) k), (Nat.ltb_spec k (k + 0)); try lia. cbn [andb firstn].
        rewrite filter_none; [reflexivity|]. intros [p y] I.
        apply in_combine_l, in_seq in I. cbn [fst]. apply andb_false_intro2. apply Nat.ltb_ge. lia.
      * destruct (Nat.leb_spec (k + 0) k), (Nat.ltb_spec k (k + S e)); try lia. cbn [andb firstn map snd].
        f_equal. rewrite <- (Nat.sub_0_r e) at 1. change l with (skipn 0 l) at 1. rewrite (IH 0 e (S k)).
        f_equal. apply filter_ext_in. intros [p y] I. apply in_combine_l, in_seq in I. cbn [fst].
        rewrite <- plus_Snm_nSm. f_equal. destruct (Nat.leb_spec (S k + 0) p), (Nat.leb_spec (k + 0) p); lia || reflexivity.
    + destruct (Nat.leb_spec (k + S s) k); try lia. cbn [andb skipn].
      destruct e as [|e].
      * cbn [Nat.sub]. rewrite firstn_O. rewrite filter_none; [reflexivity|]. intros [p y] I.
        apply in_combine_l, in_seq in I. cbn [fst]. apply andb_false_intro2. apply Nat.ltb_ge. lia.
      * cbn [Nat.sub]. rewrite (IH s e (S k)). now rewrite <- !plus_Snm_nSm.
Qed.

Lemma pynorm_le n a p : p < n -> (pynorm n a <=? p) = (wrapped n a <=? Z.of_nat p)%Z.
Proof.
  intros H. unfold pynorm, wrapped.
  destruct (Z.ltb_spec a 0); match goal with |- (?x <=? p) = (?y <=? _)%Z => destruct (Nat.leb_spec x p), (Z.leb_spec y (Z.of_nat p)) end; reflexivity || lia.
Qed.
Lemma pynorm_gt n a p : p < n -> (p <? pynorm n a) = (Z.of_nat p <? wrapped n a)%Z.
Proof.
  intros H. unfold pynorm, wrapped.
  destruct (Z.ltb_spec a 0); match goal with |- (p <? ?x) = (_ <? ?y)%Z => destruct (Nat.ltb_spec p x), (Z.ltb_spec (Z.of_nat p) y) end; reflexivity || lia.
Qed.
Lemma pynorm_bound n a : pynorm n a <= n.
Proof. unfold pynorm. destruct (Z.ltb_spec a 0); lia. Qed.

(** The position [p] belongs to the slice [a:b] of a sequence of length [n]. *)
Definition in_slice (n : nat) (a b : Z) (p : nat) : bool :=
  (wrapped n a <=? Z.of_nat p)%Z && (Z.of_nat p <? wrapped n b)%Z.

(** [l[a:b]] keeps the elements at the positions of the slice, in order. *)
Theorem C75_slice : forall X (l : list X) a b,
  pyslice l a b = map snd (filter (fun px => in_slice (length l) a b (fst px)) (combine (seq 0 (length l)) l)).
Proof.
  intros X l a b. unfold pyslice. rewrite (slice_filter l _ _ 0). f_equal. apply filter_ext_in.
  intros [p x] I. apply in_combine_l, in_seq in I. cbn [fst]. unfold in_slice. cbn [Nat.add] in *.
  now rewrite pynorm_le, pynorm_gt by lia.
Qed.

Lemma slice_length {X} (l : list X) a b :
  length (pyslice l a b) = length (filter (in_slice (length l) a b) (seq 0 (length l))).
Proof.
  rewrite C75_slice, map_length. generalize (in_slice (length l) a b) as f. intros f.
  generalize 0. induction l as [|x l IH]; intros k; [reflexivity|]. cbn [length seq combine filter fst].
  destruct (f k); cbn [length]; now rewrite IH.
Qed.

Lemma nth_error_put {X} (op : X -> X -> X) (l w : list X) s e p x :
  s <= length l -> e <= length l -> length w = e - s -> nth_error l p = Some x ->
  nth_error (firstn s l ++ map (fun ow => op (fst ow) (snd ow)) (combine (firstn (e - s) (skipn s l)) w) ++ skipn (Nat.max s e) l) p =
  if (s <=? p) && (p <? e) then match nth_error w (p - s) with Some y => Some (op x y) | None => None end else Some x.
Proof.
  intros Hs He Hw Hp. assert (Lp : p < length l) by (apply nth_error_Some; congruence).
  destruct (Nat.leb_spec s p) as [Sp|Sp]; cbn [andb].
  2:{ rewrite nth_error_app1 by (rewrite firstn_length; lia).
      rewrite <- (firstn_skipn s l) in Hp. rewrite nth_error_app1 in Hp; [exact Hp|rewrite firstn_length; lia]. }
  rewrite nth_error_app2 by (rewrite firstn_length; lia). rewrite firstn_length, Nat.min_l by lia.
  assert (LC : length (combine (firstn (e - s) (skipn s l)) w) = e - s)
    by (rewrite combine_length, firstn_length, skipn_length; lia).
  assert (Hq : nth_error (skipn s l) (p - s) = Some x).
  { rewrite <- (firstn_skipn s l) in Hp. rewrite nth_error_app2 in Hp by (rewrite firstn_length; lia).
    rewrite firstn_length, Nat.min_l in Hp by lia. exact Hp. }
  destruct (Nat.ltb_spec p e) as [Pe|Pe].
  - rewrite nth_error_app1 by (rewrite map_length, LC; lia).
    rewrite nth_error_map.
    assert (Hf : nth_error (firstn (e - s) (skipn s l)) (p - s) = Some x).
    { rewrite <- (firstn_skipn (e - s) (skipn s l)) in Hq. rewrite nth_error_app1 in Hq; [exact Hq|].
      rewrite firstn_length, skipn_length. lia. }
    clear -Hf. revert Hf. generalize (firstn (e - s) (skipn s l)) as u, (p - s) as q. clear. intros u q. revert u w.
    induction q as [|q IH]; intros [|a u] [|b w]; simpl; try discriminate; intros H; try reflexivity.
    + now injection H as ->.
    + now apply IH.
  - rewrite nth_error_app2 by (rewrite map_length, LC; lia). rewrite map_length, LC.
    rewrite <- Hp. rewrite <- (firstn_skipn (Nat.max s e) l) at 2.
    rewrite nth_error_app2 by (rewrite firstn_length; lia). f_equal. rewrite firstn_length. lia.
Qed.

(** [l[a:b] = op(l[a:b], v)] changes the positions of the slice only: the one
    at rank [r] within the slice gets [op] of the old element and the element
    [r] of [v], or the only element of [v].  It raises ValueError exactly when
    [v] has neither one element nor as many as the slice. *)
Theorem C75_slice_update : forall T (op : T -> T -> T) l a b v,
  let n := length l in
  let size := length (filter (in_slice n a b) (seq 0 n)) in
  match pyslice_upd op l a b v with
  | Ok r => (length v = size \/ length v = 1) /\ length r = n /\
      forall p x, nth_error l p = Some x ->
      (in_slice n a b p = false -> nth_error r p = Some x) /\
      (in_slice n a b p = true ->
       exists w, nth_error r p = Some (op x w) /\
       (v = [w] \/ length v = size /\ nth_error v (length (filter (in_slice n a b) (seq 0 p))) = Some w))
  | Err e => e = ValueError /\ length v <> size /\ length v <> 1
  end.
Proof.
  intros T op l a b v n size.
  assert (Sz : size = pynorm n b - pynorm n a).
  { unfold size, n. rewrite <- slice_length. unfold pyslice. rewrite firstn_length, skipn_length.
    pose proof (pynorm_bound (length l) a). pose proof (pynorm_bound (length l) b). lia. }
  assert (Rk : forall p, p < n -> in_slice n a b p = true ->
                length (filter (in_slice n a b) (seq 0 p)) = p - pynorm n a).
  { intros p Hp Hi. transitivity (length (filter (fun q => pynorm n a <=? q) (seq 0 p))).
    - f_equal. apply filter_ext_in. intros q Hq. apply in_seq in Hq. unfold in_slice in *.
      apply andb_prop in Hi as [_ Hi]. rewrite <- pynorm_le by lia.
      replace (Z.of_nat q <? wrapped n b)%Z with true by (symmetry; apply Z.ltb_lt in Hi; apply Z.ltb_lt; lia).
      apply andb_true_r.
    - clear. generalize (pynorm n a) as s. intros s. induction p as [|p IH]; [reflexivity|].
      rewrite seq_S, filter_app, app_length, IH. cbn [Nat.add filter].
      destruct (Nat.leb_spec s p); cbn [length]; lia. }
  pose proof (pynorm_bound n a) as Ba. pose proof (pynorm_bound n b) as Bb.
  assert (Lo : length (firstn (pynorm n b - pynorm n a) (skipn (pynorm n a) l)) = size)
    by (rewrite firstn_length, skipn_length; fold n; lia).
  assert (Put : forall w, length w = size -> let r := firstn (pynorm n a) l ++
      map (fun ow => op (fst ow) (snd ow)) (combine (firstn (pynorm n b - pynorm n a) (skipn (pynorm n a) l)) w) ++
      skipn (Nat.max (pynorm n a) (pynorm n b)) l in length r = n /\
      forall p x, nth_error l p = Some x ->
      (in_slice n a b p = false -> nth_error r p = Some x) /\
      (in_slice n a b p = true -> exists y, nth_error r p = Some (op x y) /\
          nth_error w (length (filter (in_slice n a b) (seq 0 p))) = Some y)).
  { intros w Hw r. split.
    - unfold r. rewrite !app_length, map_length, combine_length, Lo, Hw, firstn_length, skipn_length. fold n. lia.
    - intros p x Hp. assert (Lp : p < n) by (apply nth_error_Some; congruence).
      pose proof (nth_error_put op l w (pynorm n a) (pynorm n b) p x) as H. fold r in H. fold n in H.
      rewrite pynorm_le, pynorm_gt in H by auto. fold (in_slice n a b p) in H.
      specialize (H Ba Bb ltac:(lia) Hp). split; intros Hi; rewrite Hi in H; [exact H|].
      rewrite (Rk p Lp Hi). destruct (nth_error w (p - pynorm n a)) as [y|] eqn:Ey; [eauto|].
      exfalso. assert (p < length r) by (unfold r; rewrite !app_length, map_length, combine_length, Lo, Hw, firstn_length, skipn_length; fold n; lia).
      apply nth_error_Some in H0. congruence. }
  unfold pyslice_upd. fold n. rewrite Lo.
  destruct (Nat.eqb_spec (length v) size) as [E|E].
  - specialize (Put v E). cbv zeta in Put. destruct Put as [L P]. split; [auto|]. split; [exact L|].
    intros p x Hp. destruct (P p x Hp) as [P0 P1]. split; [exact P0|]. intros Hi.
    destruct (P1 Hi) as (y & Y1 & Y2). exists y. split; auto.
  - destruct v as [|x0 [|x1 v]]; [split; [reflexivity|simpl in *; lia]| |split; [reflexivity|simpl in *; lia]].
    specialize (Put (repeat x0 size) (repeat_length _ _)). cbv zeta in Put. destruct Put as [L P].
    split; [auto|]. split; [exact L|].
    intros p x Hp. destruct (P p x Hp) as [P0 P1]. split; [exact P0|]. intros Hi.
    destruct (P1 Hi) as (y & Y1 & Y2). exists y. split; [exact Y1|left].
    apply nth_error_In, repeat_spec in Y2. now rewrite Y2.
Qed.

(** * Registration with fewer derivatives *)

(** With [derivatives = 1] a constraint gets the Jacobian it gets with 2 and no
    Hessian; with 0 it gets neither and nothing is generated. *)
Theorem C75_constraint_levels : forall T (m m2 : smodel T) wrt fname d2,
  add_constraint m wrt fname 2 = Ok m2 -> dget String.eqb (m_cons m2) fname = Some d2 ->
  (exists m1, add_constraint m wrt fname 1 = Ok m1 /\
     dget String.eqb (m_cons m1) fname = Some (SDesc (sd_shape d2) [] (sd_jac d2) [])) /\
  (exists m0, add_constraint m wrt fname 0 = Ok m0 /\
     dget String.eqb (m_cons m0) fname = Some (SDesc (sd_shape d2) [] [] []) /\
     m_attr m0 = m_attr m /\ m_nzind m0 = m_nzind m /\ m_nnz m0 = m_nnz m) /\
  (forall k, add_constraint m wrt fname (S (S k)) = Ok m2).
Proof.
  intros T m m2 wrt fname d2 H D. unfold add_constraint in *. cbn [Nat.leb bind] in *.
  destruct (dlookup String.eqb (m_fun m) fname) as [f|e]; [|discriminate]. cbn [bind] in *.
  destruct (foldM (add_sparse fname) (m, []) (first_names fname wrt)) as [st1|e]; [|discriminate]. cbn [bind] in *.
  destruct (foldM (add_sparse fname) (fst st1, []) (second_names fname wrt)) as [st2|e] eqn:E2; [|discriminate]. cbn [bind] in *.
  injection H as <-. cbn in D. rewrite (dget_dset _ String.eqb_spec), String.eqb_refl in D. injection D as <-. cbn.
  split; [|split; [|reflexivity]].
  - eexists; split; [reflexivity|]. cbn. rewrite (dget_dset _ String.eqb_spec), String.eqb_refl. reflexivity.
  - eexists; split; [reflexivity|]. cbn. rewrite (dget_dset _ String.eqb_spec), String.eqb_refl. auto.
Qed.

(** The same for objectives and the gradient. *)
Theorem C75_objective_levels : forall T (m m2 : smodel T) wrt fname d2,
  add_objective m wrt fname 2 = Ok m2 -> dget String.eqb (m_objs m2) fname = Some d2 ->
  (exists m1, add_objective m wrt fname 1 = Ok m1 /\
     dget String.eqb (m_objs m1) fname = Some (SDesc [] (sd_grad d2) [] [])) /\
  (exists m0, add_objective m wrt fname 0 = Ok m0 /\
     dget String.eqb (m_objs m0) fname = Some (SDesc [] [] [] []) /\
     m_attr m0 = m_attr m /\ m_nzind m0 = m_nzind m /\ m_nnz m0 = m_nnz m) /\
  (forall k, add_objective m wrt fname (S (S k)) = Ok m2).
Proof.
  intros T m m2 wrt fname d2 H D. unfold add_objective in *. cbn [Nat.leb bind] in *.
  destruct (add_grad m fname wrt) as [st1|e]; [|discriminate]. cbn [bind] in *.
  destruct (foldM (add_sparse fname) (fst st1, []) (second_names fname wrt)) as [st2|e] eqn:E2; [|discriminate]. cbn [bind] in *.
  injection H as <-. cbn in D. rewrite (dget_dset _ String.eqb_spec), String.eqb_refl in D. injection D as <-. cbn.
  split; [|split; [|reflexivity]].
  - eexists; split; [reflexivity|]. cbn. rewrite (dget_dset _ String.eqb_spec), String.eqb_refl. reflexivity.
  - eexists; split; [reflexivity|]. cbn. rewrite (dget_dset _ String.eqb_spec), String.eqb_refl. auto.
Qed.

(** * Exceptions of single operations *)

(** Sums over leading axes need a size that divides. *)
Theorem C75_sum_lead : forall T `{Num T} (a : arr T) s,
  (sum_lead a s = Err ValueError <-> prodn s = 0 \/ length (adat a) mod prodn s <> 0) /\
  (forall e, sum_lead a s = Err e -> e = ValueError).
Proof.
  intros T N a s. unfold sum_lead.
  destruct (Nat.eqb_spec (prodn s) 0) as [E|E]; [split; [tauto|congruence]|].
  destruct (Nat.eqb_spec (length (adat a) mod prodn s) 0) as [M|M]; cbn [negb]; split; try tauto; try congruence.
  split; [discriminate|tauto].
Qed.

(** The endpoints of a variable without rows do not exist. *)
Theorem C75_no_endpoints : forall T `{Num T} (x : spec T) vec v,
  s_unpack x vec = Ok v -> nrows (ash v) = 0 -> xe_unpack x vec = Err IndexError.
Proof. intros T N x vec v E Z. unfold xe_unpack. now rewrite E; cbn [bind]; rewrite Z. Qed.

(** Indices of measured states: an index outside the variable, or a
    measurement time outside the grid, raises ValueError. *)
Theorem C75_measured_index : forall T `{Num T} (x : spec T) kmeas npoints nx ind,
  s_shape x = [npoints; nx] ->
  (exists i, In i ind /\ (~ (0 <= i < Z.of_nat (length kmeas * nx))%Z \/
     exists k, nth_error kmeas (Z.to_nat i / nx) = Some k /\ npoints <= k)) ->
  xm_convert x kmeas ind = Err ValueError.
Proof.
  intros T N x kmeas npoints nx ind Es (i & I & B). unfold xm_convert. rewrite Es.
  match goal with |- (let* xi := mapM ?f ind in _) = _ => set (g := f); assert (M : mapM g ind = Err ValueError) end.
  2:{ now rewrite M. }
  assert (Gi : g i = Err ValueError).
  { unfold g. destruct B as [B|(k & K & Lk)].
    - destruct (Z.leb_spec 0 i), (Z.ltb_spec i (Z.of_nat (length kmeas * nx))); cbn [andb]; try reflexivity; lia.
    - destruct (_ && _); [|reflexivity]. rewrite K. destruct (Nat.ltb_spec k npoints); [lia|reflexivity]. }
  assert (Ge : forall j e, g j = Err e -> e = ValueError).
  { intros j e. unfold g. destruct (Z.leb_spec 0 j), (Z.ltb_spec j (Z.of_nat (length kmeas * nx))); cbn [andb]; try congruence.
    destruct (nth_error kmeas (Z.to_nat j / nx)) eqn:Q; [destruct (_ <? _); congruence|].
    apply nth_error_None in Q. intros _. exfalso.
    assert (Z.to_nat j / nx < length kmeas) by (apply Nat.div_lt_upper_bound; nia). lia. }
  clear B. induction ind as [|j ind IH]; [destruct I|]. cbn [mapM]. destruct (g j) as [y|e] eqn:Q; cbn [bind].
  - destruct I as [->|I]; [congruence|]. now rewrite IH.
  - now rewrite (Ge _ _ Q).
Qed.

(** [ind[k, s] = v] with [n] selected entries: each gets its element of [v],
    or the only one; otherwise ValueError. *)
Theorem C75_put_row : forall n v,
  match put_row n v with
  | Ok r => length r = n /\ forall i, i < n -> nth_error r i = nth_error v i /\ length v = n \/ nth_error r i = nth_error v 0 /\ length v = 1
  | Err e => e = ValueError /\ length v <> n /\ length v <> 1
  end.
Proof.
  intros n v. unfold put_row. destruct (Nat.eqb_spec (length v) n) as [E|E]; [auto|].
  destruct v as [|x [|y v]]; [split; [reflexivity|simpl in *; lia]| |split; [reflexivity|simpl in *; lia]].
  split; [apply repeat_length|]. intros i Hi. right. split; [|reflexivity]. now rewrite nth_error_repeat.
Qed.

(** Contributions of the wrong shape are rejected, whatever the variable. *)
Theorem C75_assigned_shape : forall T `{Num T} (x : spec T) npieces ncol kmeas dest v,
  (ash v <> npieces :: ncol :: tl (s_shape x) -> s_add_to (piece_spec x npieces ncol) dest v = Err AssertionError) /\
  (ash v <> [2; last (s_shape x) 0] -> s_add_to (xe_spec x) dest v = Err AssertionError) /\
  (forall n m, s_shape x = [n; m] -> ash v <> [length kmeas; m] -> s_add_to (xm_spec x kmeas) dest v = Err AssertionError).
Proof.
  assert (E : forall a b, a <> b -> shape_eqb a b = false).
  { intros a b D. destruct (shape_eqb a b) eqn:Q; [|reflexivity]. now apply shape_eqb_eq in Q. }
  intros T N x np nc km dest v. split; [|split]; cbn [piece_spec xe_spec xm_spec s_add_to].
  - intros D. unfold piece_add_to. now rewrite E.
  - intros D. unfold xe_add_to. now rewrite E.
  - intros n m Es D. unfold xm_add_to, xm_shape. rewrite Es, E by exact D. reflexivity.
Qed.

(** Measurements at a time outside the variable. *)
Theorem C75_measured_rows : forall T `{Num T} (x : spec T) kmeas vec v dest k,
  In k kmeas ->
  (s_unpack x vec = Ok v -> nrows (ash v) <= k -> s_unpack (xm_spec x kmeas) vec = Err IndexError) /\
  (forall n m w, s_shape x = [n; m] -> n <= k -> ash w = [length kmeas; m] -> s_add_to (xm_spec x kmeas) dest w = Err IndexError).
Proof.
  intros T N x km vec v dest k I.
  assert (F : forall n, n <= k -> forallb (fun j => j <? n) km = false).
  { intros n L. destruct (forallb _ km) eqn:Q; [|reflexivity]. rewrite forallb_forall in Q. specialize (Q _ I). apply Nat.ltb_lt in Q. lia. }
  split; cbn [xm_spec s_unpack s_add_to].
  - intros E L. unfold xm_unpack. rewrite E. cbn [bind]. now rewrite F.
  - intros n m w Es L Ew. unfold xm_add_to, xm_shape. rewrite Es, Ew. cbn [nth nrows hd]. rewrite shape_eqb_refl. cbn [passert bind].
    now rewrite F.
Qed.

(** A generated function called with the wrong number of arguments, or with an
    argument whose last axes are not those of its variable. *)
Theorem C75_arguments : forall T `{Num T} bases out f (A : list (arr T)),
  (length A <> length bases -> batch bases out f A = Err TypeError) /\
  (forall k base a, length A = length bases -> nth_error bases k = Some base -> nth_error A k = Some a ->
     (forall l, ash a <> l ++ base) -> batch bases out f A = Err ValueError).
Proof.
  intros T N bases out f A. unfold batch. split.
  - intros L. destruct (Nat.eqb_spec (length A) (length bases)); [contradiction|reflexivity].
  - intros k base a L Eb Ea D. rewrite L, Nat.eqb_refl. cbn [negb].
    destruct (forallb _ _) eqn:Q; [|reflexivity]. exfalso. rewrite forallb_forall in Q.
    assert (I : In (base, a) (combine bases A)).
    { clear Q. revert bases A L Eb Ea. induction k as [|k IH]; intros [|b bs] [|c cs] L Eb Ea; try discriminate.
      - injection Eb as ->. injection Ea as ->. now left.
      - right. apply IH; auto. }
    specialize (Q _ I). cbn [fst snd] in Q. unfold ends_in in Q.
    apply shape_eqb_eq in Q. apply (D (firstn (length (ash a) - length base) (ash a))). rewrite <- Q at 2. now rewrite firstn_skipn.
Qed.

(** Rows of an index array. *)
Theorem C75_index_rows : forall T `{Num T} (ind : list (list Z)) k,
  (length ind <= k -> row ind k = Err IndexError) /\ (forall r, nth_error ind k = Some r <-> row ind k = Ok r).
Proof.
  intros T N ind k. unfold row. split.
  - intros L. apply nth_error_None in L. now rewrite L.
  - intros r. destruct (nth_error ind k); split; congruence.
Qed.

(** Data of the wrong size are rejected. *)
Theorem C75_data : forall T `{Num T} `{NumOrd T} (m : colmodel T) jme t y u cp, col_problem m jme t = Ok cp ->
  (length y <> length t -> oem_problem m jme t y u = Err AssertionError) /\
  (forall r, In r y -> length r <> m_ny m -> oem_problem m jme t y u = Err AssertionError) /\
  (length y = length t -> (forall r, In r y -> length r = m_ny m) ->
   ash (match u with UArr a => a | UFun f => f (cp_tc cp) end) <> [cp_npoints cp; m_nu m] -> oem_problem m jme t y u = Err AssertionError).
Proof.
  intros T N O m jme t y u cp E. unfold oem_problem. rewrite E. cbn [bind]. split; [|split].
  - intros L. destruct (Nat.eqb_spec (length y) (length t)); [contradiction|reflexivity].
  - intros r I L. destruct (_ =? length t); [|reflexivity]. cbn [andb].
    destruct (forallb (fun r => length r =? m_ny m) y) eqn:Q; [|reflexivity]. rewrite forallb_forall in Q. apply Q, Nat.eqb_eq in I. contradiction.
  - intros L R D. rewrite L, Nat.eqb_refl. cbn [andb].
    replace (forallb (fun r => length r =? m_ny m) y) with true by (symmetry; apply forallb_forall; intros r I; apply Nat.eqb_eq, R, I).
    cbn [passert bind]. destruct (shape_eqb _ _) eqn:Q; [|reflexivity]. apply shape_eqb_eq in Q. contradiction.
Qed.

Example C75_nonvacuous :
  pyslice [10; 11; 12; 13; 14] (-3) (-1) = [12; 13] /\ pyslice [10; 11; 12] 1 9 = [11; 12] /\
  pyindex [10; 11; 12] (-1) = Ok 12 /\ pyindex [10; 11; 12] 3 = Err IndexError /\
  pyslice_upd Nat.add [10; 11; 12] 1 3 [5; 6] = Ok [10; 16; 18] /\ pyslice_upd Nat.add [10; 11; 12] (-9) 2 [5] = Ok [15; 16; 12].
Proof. repeat split. Qed.

(** * C55: the characters of a key *)
Theorem C55_characters : forall c, word_char c = true <->
  In c (list_ascii_of_string "0123456789ABCDEFGHIJKLMNOPQRSTUVWXYZ_abcdefghijklmnopqrstuvwxyz"%string).
Proof.
  intros c. set (l := list_ascii_of_string _).
  assert (E : word_char c = existsb (Ascii.eqb c) l)
    by (destruct c as [[] [] [] [] [] [] [] []]; vm_compute; reflexivity).
  rewrite E, existsb_exists. split.
  - intros (x & I & Q). apply Ascii.eqb_eq in Q. now subst.
  - intros I. exists c. now rewrite Ascii.eqb_refl.
Qed.

(** * C56: what the wrapped function sees *)

(** A read that runs the wrapped function runs it in the world as it is after
    the runs before: the number of earlier runs is the number of earlier reads
    that computed. *)
Lemma reads_calls {V} m (f : nat -> nat -> V) os : forall c pre o v post,
  reads m f c os = (pre ++ (o, v, true) :: post)%list ->
  v = f o (l_calls c + length (filter snd pre)).
Proof.
  induction os as [|a os IH]; intros c pre o v post H; [destruct pre; discriminate|].
  cbn [reads] in H. destruct (lru_call m f c a) as [u c'] eqn:E. unfold lru_call in E.
  destruct (dget Nat.eqb (l_entries c) a) as [w|].
  - injection E as <- <-. cbn [l_calls] in H. rewrite Nat.eqb_refl in H. cbn [negb] in H.
    destruct pre as [|[[o' v'] b'] pre]; injection H; intros; subst; [discriminate|].
    cbn [filter snd length]. now apply IH in H0.
  - injection E as <- <-. cbn [l_calls] in H.
    replace (S (l_calls c) =? l_calls c) with false in H by (symmetry; apply Nat.eqb_neq; lia). cbn [negb] in H.
    destruct pre as [|[[o' v'] b'] pre]; injection H; intros; subst.
    + cbn. now rewrite Nat.add_0_r.
    + apply IH in H0. cbn [l_calls filter snd length] in *. rewrite H0. f_equal. lia.
Qed.
Lemma cached_calls {V} (f : nat -> nat -> V) os : forall c pre o v post,
  cached_reads f c os = (pre ++ (o, v, true) :: post)%list ->
  v = f o (l_calls c + length (filter snd pre)).
Proof.
  induction os as [|a os IH]; intros c pre o v post H; [destruct pre; discriminate|].
  cbn [cached_reads] in H. destruct (cached_call f c a) as [u c'] eqn:E. unfold cached_call in E.
  destruct (dget Nat.eqb (l_entries c) a) as [w|].
  - injection E as <- <-. rewrite Nat.eqb_refl in H. cbn [negb] in H.
    destruct pre as [|[[o' v'] b'] pre]; injection H; intros; subst; [discriminate|].
    cbn [filter snd length]. now apply IH in H0.
  - injection E as <- <-. cbn [l_calls] in H.
    replace (S (l_calls c) =? l_calls c) with false in H by (symmetry; apply Nat.eqb_neq; lia). cbn [negb] in H.
    destruct pre as [|[[o' v'] b'] pre]; injection H; intros; subst.
    + cbn. now rewrite Nat.add_0_r.
    + apply IH in H0. cbn [l_calls filter snd length] in *. rewrite H0. f_equal. lia.
Qed.
Theorem C56_runs : forall V (f : nat -> nat -> V) os pre o v post,
  (property_reads f lru0 os = (pre ++ (o, v, true) :: post)%list -> v = f o (length (filter snd pre))) /\
  (cached_reads f lru0 os = (pre ++ (o, v, true) :: post)%list -> v = f o (length (filter snd pre))).
Proof.
  intros V f os pre o v post. split; intros H; [now apply reads_calls in H|now apply cached_calls in H].
Qed.

(** * C59: tolerances given as numbers or as dictionaries *)
Theorem C59_tolerance : forall a b t,
  let at_rt := match t with
               | TolNum x => (x, x)
               | TolDict _ _ (Some x) => (x, x)
               | TolDict o1 o2 None => (match o1 with Some x => x | None => 0%R end, match o2 with Some x => x | None => 0%R end)
               end in
  array_lt a b t = true <->
  exists u, broadcasts (ash a) (ash b) u /\
  forall ix, index_of u ix -> close (fst at_rt) (snd at_rt) (elem a ix) (elem b ix).
Proof. intros a b [x|o1 o2 [x|]]; apply (proj1 (C59_comparison a b _ _)). Qed.
