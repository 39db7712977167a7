(** Functions generated from symbolic ones satisfy the derivative laws. *)
From Coq Require Import String List ZArith Bool Arith Lia Reals Lra Permutation.
From Coquelicot Require Import Coquelicot.
From Verif Require Import Py NdArray OptimModel DictLemmas NdLemmas OptimSpec OptimLaws LawFacts LayoutLemmas
  ProblemSpec ProblemFacts DerivSpec CalcLemmas IndexLemmas GenModel GenSpec GenLemmas GenDeriv
  SymModel NameLemmas SymLemmas.
Import ListNotations.
Local Open Scope string_scope.
Local Open Scope list_scope.
Local Open Scope R_scope.

(** *** Specification: laws of the symbolic functions *)
Section SymSpec.
  Variable shp : string -> shape.       (* shapes of the variables *)
  Variable f : sfun R.
  Let size (w : string) : nat := prodn (shp w).
  Let osz : nat := prodn (sf_out f).

  (** d f_o / d w_i at [A] as the generated code evaluates it ... *)
  Definition sder (A : list (list R)) (w : string) (i o : nat) : R :=
    se_eval (nth (i * osz + o) (sf_deriv f [w]) zero_expr) A.
  (** ... and d^2 f_o / d a_i d b_j. *)
  Definition sder2 (A : list (list R)) (a b : string) (i j o : nat) : R :=
    se_eval (nth ((i * size b + j) * osz + o) (sf_deriv f [a; b]) zero_expr) A.

  Definition sym_value (A : list (list R)) (o : nat) : R := nth o (evals (sf_expr f) A) 0.

  (** Symbolic differentiation is right, at [A0]. *)
  Definition sym_jac_law (W : list string) (A0 : list (list R)) : Prop :=
    forall D o, supported W D -> (o < osz)%nat ->
    is_derive (fun t => sym_value (bmove (sf_args f) A0 D t) o) 0
      (rsum (map (fun w => sumn (size w) (fun i => sder A0 w i o * D w i)) W)).
  Definition sym_hess_law (W : list string) (A0 : list (list R)) : Prop :=
    forall D E o, supported W D -> supported W E -> (o < osz)%nat ->
    d2 (fun s t => sym_value (bmove (sf_args f) (bmove (sf_args f) A0 E t) D s) o)
      (rsum (map (fun a => rsum (map (fun b =>
         sumn (size a) (fun i => sumn (size b) (fun j => sder2 A0 a b i j o * (D a i * E b j)))) W)) W)).
  (** Partial derivatives commute. *)
  Definition sym_commute (W : list string) (A0 : list (list R)) : Prop :=
    forall a b i j o, In a W -> In b W -> (i < size a)%nat -> (j < size b)%nat -> (o < osz)%nat ->
    sder2 A0 a b i j o = sder2 A0 b a j i o.

  (** Expressions are well formed: array sizes, sound zero test, and the
      generated class knows the variables. *)
  Record swf (W : list string) : Prop := {
    sw_args : NoDup (sf_args f);
    sw_W : NoDup W;
    sw_in : forall w, In w W -> In w (sf_args f);
    sw_expr : length (sf_expr f) = osz;
    sw_d1 : forall w, In w W -> length (sf_deriv f [w]) = (size w * osz)%nat;
    sw_d2 : forall a b, In a W -> In b W -> length (sf_deriv f [a; b]) = (size a * (size b * osz))%nat;
    sw_z1 : forall w e, In w W -> In e (sf_deriv f [w]) -> sound e;
    sw_z2 : forall a b e, In a W -> In b W -> In e (sf_deriv f [a; b]) -> sound e
  }.
End SymSpec.

(** *** Sums *)
Lemma rsum_filter {A} (P : A -> bool) (h : A -> R) l :
  rsum (map h (filter P l)) = rsum (map (fun a => if P a then h a else 0) l).
Proof.
  induction l as [|a l IH]; [reflexivity|]. cbn [filter map]. destruct (P a); cbn [map];
    change (rsum (?x :: ?l)) with (x + rsum l); rewrite IH; lra.
Qed.

Lemma sumn_addR n (f g : nat -> R) : sumn n (fun i => f i + g i) = sumn n f + sumn n g.
Proof. exact (sumn_add n f g). Qed.

Lemma triangle n (M F : nat -> nat -> R) : (forall i j, (i < n)%nat -> (j < n)%nat -> M i j = M j i) ->
  sumn n (fun i => sumn n (fun j => if (i <=? j)%nat then M i j * (if (i =? j)%nat then F i i else F i j + F j i) else 0))
  = sumn n (fun i => sumn n (fun j => M i j * F i j)).
Proof.
  intros HM.
  transitivity (sumn n (fun i => sumn n (fun j => (if (i <=? j)%nat then M i j * F i j else 0)
                                               + (if (i <? j)%nat then M j i * F j i else 0)))).
  - apply sumn_ext. intros i Hi. apply sumn_ext. intros j Hj.
    destruct (Nat.leb_spec i j), (Nat.ltb_spec i j), (Nat.eqb_spec i j); try lia; subst; cbn [nadd num_R]; try lra.
    rewrite (HM j i) by auto. lra.
  - transitivity (sumn n (fun i => sumn n (fun j => if (i <=? j)%nat then M i j * F i j else 0))
                + sumn n (fun i => sumn n (fun j => if (i <? j)%nat then M j i * F j i else 0))).
    { rewrite <- (sumn_addR n). apply sumn_ext. intros i Hi. apply (sumn_addR n). }
    rewrite (sumn_swap n n (fun i j => if (i <? j)%nat then M j i * F j i else 0)).
    rewrite <- (sumn_addR n). apply sumn_ext. intros i Hi. rewrite <- (sumn_addR n). apply sumn_ext. intros j Hj.
    destruct (Nat.leb_spec i j), (Nat.ltb_spec j i); try lia; cbn [nadd num_R]; lra.
Qed.

Lemma pairs_sum (W : list string) (h : string -> string -> R) : NoDup W ->
  rsum (map (fun ab => if String.eqb (fst ab) (snd ab) then h (fst ab) (fst ab)
                       else h (fst ab) (snd ab) + h (snd ab) (fst ab)) (pairs2 W))
  = rsum (map (fun a => rsum (map (h a) W)) W).
Proof.
  induction W as [|w W IH]; intros HN; [reflexivity|]. inversion HN as [|x l Hw HN']; subst.
  cbn [pairs2]. rewrite map_app, rsum_app, IH, map_map by auto. cbn [map fst snd].
  change (rsum (?x :: ?l)) with (x + rsum l). rewrite String.eqb_refl.
  rewrite (rsum_map_ext (fun x => if String.eqb w x then h w w else h w x + h x w) (fun x => h w x + h x w) W).
  - rewrite rsum_map_plus. change (rsum (?x :: ?l)) with (x + rsum l).
    rewrite rsum_map_plus. lra.
  - intros b Hb. destruct (String.eqb_spec w b); [subst; contradiction|reflexivity].
Qed.

Lemma rsum_perm l l' : Permutation l l' -> rsum l = rsum l'.
Proof. induction 1; simpl; lra. Qed.

Lemma pairs2_NoDup (l : list string) : NoDup l -> NoDup (map (fun ab => [fst ab; snd ab]) (pairs2 l)).
Proof.
  induction l as [|x l IH]; [constructor|]. intros HN. inversion HN as [|y l' Hx HN']; subst.
  cbn [pairs2]. rewrite map_app, map_map. cbn [fst snd].
  assert (HA : forall (l1 l2 : list (list string)), NoDup l1 -> NoDup l2 -> (forall k, In k l1 -> ~ In k l2) -> NoDup (l1 ++ l2)).
  { clear. induction l1 as [|k l1 IH]; simpl; intros l2 H1 H2 H; auto. inversion H1; subst. constructor.
    - intros Hin. apply in_app_or in Hin as [|Hin]; [contradiction|]. apply (H k); auto.
    - apply IH; auto. }
  apply HA; auto.
  - clear - HN. remember (x :: l) as L eqn:E. clear E. induction HN as [|y L Hy HN IH]; [constructor|]. cbn [map]. constructor; auto.
    intros Hin. apply in_map_iff in Hin as (z & [= ->] & Hz). contradiction.
  - intros k H1 H2. apply in_map_iff in H1 as (y & <- & Hy). apply in_map_iff in H2 as ([a b] & [= -> ->] & Hab).
    apply pairs2_In in Hab as [Ha _]. contradiction.
Qed.

Section Laws.
  Variable shp : string -> shape.
  Variable f : sfun R.
  Variable W : list string.
  Notation size w := (prodn (shp w)).
  Notation osz := (prodn (sf_out f)).
  Notation sizes := (fun w : string => prodn (shp w)).
  Hypothesis SW : swf shp f W.

  Lemma tsum_as {X C} (cell : X -> C) (out : X -> Z) (val : X -> R) l D q :
    tsum (map cell l) (map out l) (map val l) D q = rsum (map (fun x => if (out x =? q)%Z then val x * D (cell x) else 0) l).
  Proof. unfold tsum. rewrite !combine_map2, map_map. reflexivity. Qed.

  (** Sum over the kept elements of an array, as a sum over all elements. *)
  Lemma nz_sum wrt dims (expr : list (sexpr R)) A (c : list nat -> R) : length expr = prodn dims ->
    (forall e, In e expr -> sound e) ->
    rsum (map (fun ie => se_eval (snd ie) A * c (fst ie)) (nonzeros wrt dims expr))
    = sumn (prodn dims) (fun k => if keepind wrt (nth k (ndindex dims) [])
                                  then se_eval (nth k expr zero_expr) A * c (nth k (ndindex dims) []) else 0).
  Proof.
    intros HL HZ. rewrite nonzeros_kept by auto. rewrite map_map. unfold kept. rewrite rsum_filter, <- sumn_rsum.
    apply sumn_ext. intros k Hk. cbn [fst snd]. destruct (keepind wrt _); [|reflexivity]. cbn [andb].
    destruct (se_nz (nth k expr zero_expr)) eqn:E; [reflexivity|].
    rewrite (HZ (nth k expr zero_expr)); auto.
    - change (@n0 R num_R) with 0. lra.
    - apply nth_In. lia.
  Qed.

  Lemma ind2 n i o : (i < n)%nat -> (o < osz)%nat ->
    (i * osz + o < n * osz)%nat /\ nth (i * osz + o) (ndindex [n; osz]) [] = [i; o].
  Proof.
    intros Hi Ho. split; [nia|]. assert (index_in [n; osz] [i; o]).
    { split; [reflexivity|]. intros [|[|k]] Hk; simpl in *; auto; lia. }
    rewrite <- (ndindex_nth _ _ H). f_equal. cbn. lia.
  Qed.
  Lemma ind3 n m i j o : (i < n)%nat -> (j < m)%nat -> (o < osz)%nat ->
    nth (i * (m * osz) + (j * osz + o)) (ndindex [n; m; osz]) [] = [i; j; o].
  Proof.
    intros Hi Hj Ho. assert (index_in [n; m; osz] [i; j; o]).
    { split; [reflexivity|]. intros [|[|[|k]]] Hk; simpl in *; auto; lia. }
    rewrite <- (ndindex_nth _ _ H). f_equal. cbn. rewrite !Nat.mul_1_r. lia.
  Qed.

  Definition jblk (w : string) := map (fun ie => (w, Z.of_nat (nth 0 (fst ie) O))) (nz_of sizes f [w]).
  Definition oblk (r : nat) (wrt : list string) := map (fun ie => Z.of_nat (nth r (fst ie) O)) (nz_of sizes f wrt).
  Definition vblk (wrt : list string) (A : list (list R)) := map (fun ie => se_eval (snd ie) A) (nz_of sizes f wrt).

  (** One Jacobian block. *)
  Lemma jblock_sum w A (D : string * Z -> R) o : In w W -> (o < osz)%nat ->
    tsum (jblk w) (oblk 1 [w]) (vblk [w] A) D (Z.of_nat o)
    = sumn (size w) (fun i => sder f A w i o * D (w, Z.of_nat i)).
  Proof.
    intros Hw Ho. unfold jblk, oblk, vblk. rewrite tsum_as.
    rewrite (rsum_map_ext _ (fun ie => se_eval (snd ie) A *
       (if (Z.of_nat (nth 1 (fst ie) O) =? Z.of_nat o)%Z then D (w, Z.of_nat (nth 0 (fst ie) O)) else 0))).
    2:{ intros ie _. destruct (_ =? _)%Z; lra. }
    unfold nz_of. rewrite (nz_sum _ _ _ _ (fun ix => if (Z.of_nat (nth 1 ix O) =? Z.of_nat o)%Z then D (w, Z.of_nat (nth 0 ix O)) else 0)).
    2:{ rewrite (sw_d1 _ _ _ SW) by auto. unfold dims_of. cbn. lia. }
    2:{ intros e He. exact (sw_z1 _ _ _ SW w e Hw He). }
    unfold dims_of. cbn [map app].
    replace (prodn [size w; osz]) with (size w * osz)%nat by (cbn; lia).
    rewrite (sumn_prod (size w) osz). apply sumn_ext. intros i Hi.
    rewrite (sumn_single osz o); auto.
    - destruct (ind2 (size w) i o Hi Ho) as [_ E]. rewrite E. cbn [keepind nth]. rewrite Z.eqb_refl. reflexivity.
    - intros o' Ho' Hne. destruct (ind2 (size w) i o' Hi Ho') as [_ E]. rewrite E. cbn [keepind nth].
      destruct (Z.eqb_spec (Z.of_nat o') (Z.of_nat o)); [lia|]. change (@n0 R num_R) with 0. lra.
  Qed.

  Definition hblk (a b : string) :=
    map (fun ie => ((a, Z.of_nat (nth 0 (fst ie) O)), (b, Z.of_nat (nth 1 (fst ie) O)))) (nz_of sizes f [a; b]).

  Lemma hblock_sum a b A (G : (string * Z) * (string * Z) -> R) o : In a W -> In b W -> (o < osz)%nat ->
    tsum (hblk a b) (oblk 2 [a; b]) (vblk [a; b] A) G (Z.of_nat o)
    = sumn (size a) (fun i => sumn (size b) (fun j =>
        if keepind [a; b] [i; j] then sder2 shp f A a b i j o * G ((a, Z.of_nat i), (b, Z.of_nat j)) else 0)).
  Proof.
    intros Ha Hb Ho. unfold hblk, oblk, vblk. rewrite tsum_as.
    set (c := fun ix : list nat => if (Z.of_nat (nth 2 ix O) =? Z.of_nat o)%Z
                then G ((a, Z.of_nat (nth 0 ix O)), (b, Z.of_nat (nth 1 ix O))) else 0).
    rewrite (rsum_map_ext _ (fun ie => se_eval (snd ie) A * c (fst ie))).
    2:{ intros ie _. unfold c. destruct (_ =? _)%Z; lra. }
    unfold nz_of. rewrite (nz_sum _ _ _ _ c).
    2:{ rewrite (sw_d2 _ _ _ SW) by auto. unfold dims_of. cbn. lia. }
    2:{ intros e He. exact (sw_z2 _ _ _ SW a b e Ha Hb He). }
    unfold dims_of. cbn [map app].
    replace (prodn [size a; size b; osz]) with (size a * (size b * osz))%nat by (cbn; lia).
    rewrite (sumn_prod (size a) (size b * osz)). apply sumn_ext. intros i Hi.
    rewrite (sumn_prod (size b) osz). apply sumn_ext. intros j Hj.
    rewrite (sumn_single osz o); auto.
    - rewrite ind3 by auto. change (keepind [a; b] [i; j; o]) with (keepind [a; b] [i; j]).
      destruct (keepind [a; b] [i; j]); [|reflexivity]. unfold c. cbn [nth]. rewrite Z.eqb_refl.
      unfold sder2. replace (i * (size b * osz) + (j * osz + o))%nat with ((i * size b + j) * osz + o)%nat by lia. reflexivity.
    - intros o' Ho' Hne. rewrite ind3 by auto. unfold c. cbn [nth].
      destruct (Z.eqb_spec (Z.of_nat o') (Z.of_nat o)); [lia|]. change (@n0 R num_R) with 0. destruct (keepind _ _); lra.
  Qed.

  (** Weight of a triangular entry. *)
  Definition symw (F : string * Z -> string * Z -> R) (cc : (string * Z) * (string * Z)) : R :=
    if cell_eqb (fst cc) (snd cc) then F (fst cc) (fst cc) else F (fst cc) (snd cc) + F (snd cc) (fst cc).

  Lemma hess_sum A F o : sym_commute shp f W A -> (o < osz)%nat ->
    rsum (map (fun ab => tsum (hblk (fst ab) (snd ab)) (oblk 2 [fst ab; snd ab]) (vblk [fst ab; snd ab] A) (symw F) (Z.of_nat o)) (pairs2 W))
    = rsum (map (fun a => rsum (map (fun b => sumn (size a) (fun i => sumn (size b) (fun j =>
        sder2 shp f A a b i j o * F (a, Z.of_nat i) (b, Z.of_nat j)))) W)) W).
  Proof.
    intros HC Ho.
    rewrite <- (pairs_sum W (fun a b => sumn (size a) (fun i => sumn (size b) (fun j =>
        sder2 shp f A a b i j o * F (a, Z.of_nat i) (b, Z.of_nat j)))) (sw_W _ _ _ SW)).
    apply rsum_map_ext. intros [a b] Hab. cbn [fst snd]. apply pairs2_In in Hab as [Ha Hb].
    rewrite hblock_sum by auto. cbn [keepind nth]. destruct (String.eqb_spec a b) as [<-|Hne].
    - rewrite <- (triangle (size a) (fun i j => sder2 shp f A a a i j o) (fun i j => F (a, Z.of_nat i) (a, Z.of_nat j))).
      + apply sumn_ext. intros i Hi. apply sumn_ext. intros j Hj. destruct (Nat.leb_spec i j); [|reflexivity].
        unfold symw, cell_eqb. cbn [fst snd]. rewrite String.eqb_refl. cbn [andb].
        destruct (Nat.eqb_spec i j) as [->|Hij]; [now rewrite Z.eqb_refl|].
        destruct (Z.eqb_spec (Z.of_nat i) (Z.of_nat j)); [lia|reflexivity].
      + intros i j Hi Hj. now apply HC.
    - rewrite (sumn_swap (size b) (size a)). rewrite <- (sumn_addR (size a)). apply sumn_ext. intros i Hi.
      rewrite <- (sumn_addR (size b)). apply sumn_ext. intros j Hj. unfold symw, cell_eqb. cbn [fst snd].
      destruct (String.eqb_spec a b); [contradiction|]. cbn [andb]. rewrite (HC b a j i o) by auto.
      cbn [nadd num_R]. lra.
  Qed.

  (** *** The generated function *)
  Variable bsh : sdict shape.
  Hypothesis HBS : forall w, In w W -> dget String.eqb bsh w = Some (shp w).

  Lemma base_jb_mk w : base_jb (mk_gderiv sizes f [w]) = JB w (map (fun ie => Z.of_nat (nth 0 (fst ie) O)) (nz_of sizes f [w])) (oblk 1 [w]).
  Proof. unfold base_jb, nthrow, mk_gderiv, transpose_ind, oblk. cbn. now rewrite !map_map. Qed.
  Lemma base_hb_mk a b : base_hb (mk_gderiv sizes f [a; b])
    = HB a b (map (fun ie => Z.of_nat (nth 0 (fst ie) O)) (nz_of sizes f [a; b]))
             (map (fun ie => Z.of_nat (nth 1 (fst ie) O)) (nz_of sizes f [a; b])) (oblk 2 [a; b]).
  Proof. unfold base_hb, nthrow, mk_gderiv, transpose_ind, oblk. cbn. now rewrite !map_map. Qed.

  Lemma val_mk wrt A : gd_val (mk_gderiv sizes f wrt) A = vblk wrt A.
  Proof. unfold mk_gderiv, vblk, evals. cbn [gd_val]. now rewrite map_map. Qed.

  Lemma blk_lengths wrt A : length (oblk (length wrt) wrt) = length (nz_of sizes f wrt) /\ length (vblk wrt A) = length (nz_of sizes f wrt).
  Proof. unfold oblk, vblk. now rewrite !map_length. Qed.

  (** Dropping blocks without entries changes nothing. *)
  Lemma drop_empty {X} (P : X -> bool) (h : X -> R) l : (forall x, In x l -> P x = false -> h x = 0) ->
    rsum (map h (filter P l)) = rsum (map h l).
  Proof.
    intros H. rewrite rsum_filter. apply rsum_map_ext. intros x Hx. destruct (P x) eqn:E; auto. symmetry. now apply H.
  Qed.

  Lemma jac_total A D o :
    tsum (jcells (map base_jb (map (mk_gderiv sizes f) (filter (has_nz sizes f) (firsts W)))))
         (jouts (map base_jb (map (mk_gderiv sizes f) (filter (has_nz sizes f) (firsts W)))))
         (flat_map (fun d => gd_val d A) (map (mk_gderiv sizes f) (filter (has_nz sizes f) (firsts W)))) D o
    = rsum (map (fun w => tsum (jblk w) (oblk 1 [w]) (vblk [w] A) D o) W).
  Proof.
    unfold jcells, jouts, firsts. rewrite filter_map. rewrite !map_map, !flat_map_map.
    rewrite tsum_flat.
    - rewrite drop_empty.
      + apply rsum_map_ext. intros w Hw. rewrite base_jb_mk, val_mk. cbn [jb_w jb_i jb_o]. unfold jblk. now rewrite map_map.
      + intros w Hw E. rewrite base_jb_mk. cbn [jb_w jb_i jb_o]. unfold has_nz in E. apply negb_false_iff, Nat.eqb_eq, length_zero_iff_nil in E.
        unfold oblk. rewrite E. reflexivity.
    - intros w Hw. rewrite base_jb_mk, val_mk. cbn [jb_w jb_i jb_o]. unfold oblk, vblk. now rewrite !map_length.
  Qed.

  Lemma hess_total A G o :
    tsum (hcells (map base_hb (map (mk_gderiv sizes f) (filter (has_nz sizes f) (seconds W)))))
         (houts (map base_hb (map (mk_gderiv sizes f) (filter (has_nz sizes f) (seconds W)))))
         (flat_map (fun d => gd_val d A) (map (mk_gderiv sizes f) (filter (has_nz sizes f) (seconds W)))) G o
    = rsum (map (fun ab => tsum (hblk (fst ab) (snd ab)) (oblk 2 [fst ab; snd ab]) (vblk [fst ab; snd ab] A) G o) (pairs2 W)).
  Proof.
    unfold hcells, houts, seconds. rewrite filter_map. rewrite !map_map, !flat_map_map.
    rewrite tsum_flat.
    - rewrite drop_empty.
      + apply rsum_map_ext. intros [a b] Hw. rewrite base_hb_mk, val_mk. cbn [fst snd hb_a hb_b hb_i hb_j hb_o]. unfold hblk.
        now rewrite !map_map, combine_map2.
      + intros [a b] Hw E. rewrite base_hb_mk. cbn [fst snd hb_a hb_b hb_i hb_j hb_o]. unfold has_nz in E. apply negb_false_iff, Nat.eqb_eq, length_zero_iff_nil in E.
        cbn [fst snd] in E. unfold oblk. rewrite E. reflexivity.
    - intros [a b] Hw. rewrite base_hb_mk, val_mk. cbn [fst snd hb_a hb_b hb_i hb_j hb_o]. unfold oblk, vblk.
      rewrite combine_length, !map_length. lia.
  Qed.

  Section Generated.
    Variable g : gfun R.
    Hypothesis Gargs : gf_args g = sf_args f.
    Hypothesis Gbases : gf_bases g = map shp (sf_args f).
    Hypothesis Gout : gf_out g = sf_out f.
    Hypothesis Gbase : gf_base g = evals (sf_expr f).
    Hypothesis Ghess : gf_hess g = map (mk_gderiv sizes f) (filter (has_nz sizes f) (seconds W)).
    Hypothesis Gsh : gf_base_shapes g = bsh.

    Lemma base_of_gen w : In w (sf_args f) -> base_of g w = shp w.
    Proof.
      intros Hw. unfold base_of. rewrite Gargs, Gbases.
      assert (forall l, In w l -> dget String.eqb (combine l (map shp l)) w = Some (shp w)) as H.
      { clear. induction l as [|v l IH]; [intros []|]. cbn [map combine dget]. intros H.
        destruct (String.eqb_spec v w) as [->|Hne]; [destruct (String.eqb_spec w w); [reflexivity|contradiction]|].
        destruct (String.eqb_spec w v); [subst; contradiction|]. apply IH. destruct H; [contradiction|auto]. }
      now rewrite H.
    Qed.

    Lemma known_gen w : In w W -> known g w.
    Proof.
      intros Hw. pose proof (sw_in _ _ _ SW w Hw). split; [now rewrite Gargs|]. rewrite Gsh, base_of_gen by auto. now apply HBS.
    Qed.

    Lemma nz_dims wrt ie : In ie (nz_of sizes f wrt) -> length (sf_deriv f wrt) = prodn (dims_of sizes f wrt) ->
      index_in (dims_of sizes f wrt) (fst ie).
    Proof.
      intros H HL. unfold nz_of in H. rewrite nonzeros_kept in H by auto. apply in_map_iff in H as (k & <- & Hk).
      apply kept_In in Hk as [Hk _]. cbn [fst]. now apply ndindex_spec.
    Qed.

    Lemma range_row wrt r n : length (sf_deriv f wrt) = prodn (dims_of sizes f wrt) ->
      (r < length (dims_of sizes f wrt))%nat -> nth r (dims_of sizes f wrt) O = n ->
      in_range n (map (fun ie => Z.of_nat (nth r (fst ie) O)) (nz_of sizes f wrt)).
    Proof.
      intros HL Hr Hn. unfold in_range. apply Forall_forall. intros z Hz. apply in_map_iff in Hz as (ie & <- & Hie).
      destruct (nz_dims _ _ Hie HL) as [_ H]. specialize (H r Hr). lia.
    Qed.

    Lemma hess_entries : List.Forall (fun d => exists a b i j o, gd_wrt d = [a; b] /\ gd_ind d = [i; j; o] /\
      known g a /\ known g b /\
      length i = gd_nnz d /\ length j = gd_nnz d /\ length o = gd_nnz d /\
      in_range (prodn (base_of g a)) i /\ in_range (prodn (base_of g b)) j /\ in_range (prodn (gf_out g)) o /\
      forall A, length (gd_val d A) = gd_nnz d) (gf_hess g).
    Proof.
      rewrite Ghess. apply Forall_forall. intros d Hd. apply in_map_iff in Hd as (k & <- & Hk).
      apply filter_In in Hk as [Hk _]. apply in_map_iff in Hk as ([a b] & <- & Hab). apply pairs2_In in Hab as [Ha Hb].
      cbn [fst snd]. eexists a, b, _, _, _. split; [reflexivity|]. split; [reflexivity|].
      split; [now apply known_gen|]. split; [now apply known_gen|].
      cbn [mk_gderiv gd_nnz]. rewrite !map_length. do 3 (split; [reflexivity|]).
      assert (HL : length (sf_deriv f [a; b]) = prodn (dims_of sizes f [a; b])).
      { rewrite (sw_d2 _ _ _ SW) by auto. unfold dims_of. cbn. lia. }
      rewrite !base_of_gen by (now apply (sw_in _ _ _ SW)). rewrite Gout.
      assert (EM : forall r, map (fun ind => Z.of_nat (nth r ind O)) (map fst (nz_of sizes f [a; b]))
                       = map (fun ie => Z.of_nat (nth r (fst ie) O)) (nz_of sizes f [a; b])) by (intros; apply map_map).
      split; [|split; [|split]].
      - rewrite EM. apply range_row; [exact HL|unfold dims_of; cbn; lia|reflexivity].
      - rewrite EM. apply range_row; [exact HL|unfold dims_of; cbn; lia|reflexivity].
      - rewrite EM. apply range_row; [exact HL|unfold dims_of; cbn; lia|reflexivity].
      - intros A. unfold mk_gderiv. cbn [gd_val gd_nnz]. unfold evals. now rewrite !map_length.
    Qed.

    Lemma NoDup_filter' {X} (P : X -> bool) l : NoDup l -> NoDup (filter P l).
    Proof. apply NoDup_filter. Qed.

    Lemma hess_keys : NoDup (map (@gd_wrt R) (gf_hess g)).
    Proof.
      rewrite Ghess, map_map. cbn [mk_gderiv gd_wrt]. rewrite map_id. apply NoDup_filter'. apply pairs2_NoDup, (sw_W _ _ _ SW).
    Qed.

    Lemma gen_hess_law : forall A0, (forall B, length (evals (sf_expr f) B) = osz) -> sym_hess_law shp f W A0 -> sym_commute shp f W A0 ->
      base_hess_law g W A0.
    Proof.
      intros A0 _ HH HC D E o HD HE Ho. rewrite Gout in Ho.
      rewrite Ghess. rewrite hess_total.
      specialize (HH D E o HD HE Ho). unfold sym_value in HH. rewrite Gargs, Gbase.
      replace (rsum _) with (rsum (map (fun a => rsum (map (fun b =>
         sumn (size a) (fun i => sumn (size b) (fun j => sder2 shp f A0 a b i j o * (D a i * E b j)))) W)) W)); [exact HH|].
      symmetry. etransitivity; [|etransitivity; [apply (hess_sum A0 (fun c1 c2 => on_cell D c1 * on_cell E c2) o HC Ho)|]].
      - apply rsum_map_ext. intros ab _. reflexivity.
      - apply rsum_map_ext. intros a _. apply rsum_map_ext. intros b _. apply sumn_ext. intros i _. apply sumn_ext. intros j _.
        unfold on_cell. cbn [fst snd]. now rewrite !Nat2Z.id.
    Qed.
  End Generated.

  (** *** Generated constraints *)
  Notation gc fname := (wanted_constraint sizes f fname (map shp (sf_args f)) bsh W).
  Notation go fname := (wanted_objective sizes f fname (map shp (sf_args f)) bsh W).

  Lemma constraint_gwf fname : gwf (gc fname).
  Proof.
    constructor.
    - apply (sw_args _ _ _ SW).
    - cbn. now rewrite map_length.
    - intros A. cbn [wanted_constraint gf_base gf_out]. unfold evals. rewrite map_length. apply (sw_expr _ _ _ SW).
    - cbn [wanted_constraint gf_jac]. apply Forall_forall. intros d Hd. apply in_map_iff in Hd as (k & <- & Hk).
      apply filter_In in Hk as [Hk _]. apply in_map_iff in Hk as (w & <- & Hw).
      eexists w, _, _. split; [reflexivity|]. split; [reflexivity|].
      split; [now apply (known_gen (gc fname) eq_refl eq_refl eq_refl)|].
      cbn [mk_gderiv gd_nnz]. rewrite !map_length. do 2 (split; [reflexivity|]).
      assert (HL : length (sf_deriv f [w]) = prodn (dims_of sizes f [w])).
      { rewrite (sw_d1 _ _ _ SW) by auto. unfold dims_of. cbn. lia. }
      rewrite (base_of_gen (gc fname) eq_refl eq_refl) by (now apply (sw_in _ _ _ SW)).
      assert (EM : forall r, map (fun ind => Z.of_nat (nth r ind O)) (map fst (nz_of sizes f [w]))
                       = map (fun ie => Z.of_nat (nth r (fst ie) O)) (nz_of sizes f [w])) by (intros; apply map_map).
      split; [|split].
      + rewrite EM. apply range_row; [exact HL|unfold dims_of; cbn; lia|reflexivity].
      + rewrite EM. apply range_row; [exact HL|unfold dims_of; cbn; lia|reflexivity].
      + intros A. unfold mk_gderiv. cbn [gd_val gd_nnz]. unfold evals. now rewrite !map_length.
    - cbn [wanted_constraint gf_jac]. rewrite map_map. cbn [mk_gderiv gd_wrt]. rewrite map_id. apply NoDup_filter'.
      unfold firsts. apply FinFun.Injective_map_NoDup; [intros a b [= ->]; reflexivity|apply (sw_W _ _ _ SW)].
    - apply hess_entries; reflexivity.
    - apply hess_keys; reflexivity.
    - constructor.
    - constructor.
  Qed.

  Lemma constraint_jac_law fname A0 : sym_jac_law shp f W A0 -> base_jac_law (gc fname) W A0.
  Proof.
    intros HJ D o HD Ho. cbn [wanted_constraint gf_out gf_base gf_args gf_jac] in *.
    rewrite jac_total. specialize (HJ D o HD Ho). unfold sym_value in HJ.
    replace (rsum _) with (rsum (map (fun w => sumn (size w) (fun i => sder f A0 w i o * D w i)) W)); [exact HJ|].
    apply rsum_map_ext. intros w Hw. rewrite jblock_sum by auto. apply sumn_ext. intros i _. unfold on_cell. cbn [fst snd].
    now rewrite Nat2Z.id.
  Qed.
  Lemma constraint_hess_law fname A0 : sym_hess_law shp f W A0 -> sym_commute shp f W A0 -> base_hess_law (gc fname) W A0.
  Proof.
    intros. apply gen_hess_law; auto. intros B. unfold evals. rewrite map_length. apply (sw_expr _ _ _ SW).
  Qed.

  (** *** Generated objectives *)
  Lemma objective_gwf fname : sf_out f = [] -> gwf (go fname).
  Proof.
    intros HO. constructor.
    - apply (sw_args _ _ _ SW).
    - cbn. now rewrite map_length.
    - intros A. cbn [wanted_objective gf_base gf_out]. unfold evals. rewrite map_length, (sw_expr _ _ _ SW), HO. reflexivity.
    - constructor.
    - constructor.
    - apply hess_entries; try reflexivity. now rewrite HO.
    - apply hess_keys; reflexivity.
    - cbn [wanted_objective gf_grad gf_args]. apply Forall_forall. intros wf Hwf. apply in_map_iff in Hwf as (w & <- & Hw).
      cbn [fst snd]. split; [now apply (sw_in _ _ _ SW)|]. intros A.
      rewrite (base_of_gen (go fname) eq_refl eq_refl) by (now apply (sw_in _ _ _ SW)).
      unfold evals. rewrite map_length, (sw_d1 _ _ _ SW) by auto. rewrite HO. cbn. lia.
    - cbn [wanted_objective gf_grad]. rewrite map_map. cbn [fst]. rewrite map_id. apply (sw_W _ _ _ SW).
  Qed.

  Lemma objective_hess_law fname A0 : sf_out f = [] -> sym_hess_law shp f W A0 -> sym_commute shp f W A0 -> base_hess_law (go fname) W A0.
  Proof.
    intros HO HH HC. apply gen_hess_law; auto. intros B. unfold evals. rewrite map_length. apply (sw_expr _ _ _ SW).
  Qed.

  Lemma objective_grad_law fname A0 : sf_out f = [] -> sym_jac_law shp f W A0 -> base_grad_law (go fname) W A0.
  Proof.
    intros HO HJ D HD. specialize (HJ D O HD). rewrite HO in HJ. specialize (HJ ltac:(cbn; lia)).
    cbn [wanted_objective gf_base gf_args gf_grad].
    apply (is_derive_ext (fun t => sym_value f (bmove (sf_args f) A0 D t) 0)).
    - intros t. unfold sym_value. assert (HL : length (evals (sf_expr f) (bmove (sf_args f) A0 D t)) = 1%nat).
      { unfold evals. rewrite map_length, (sw_expr _ _ _ SW), HO. reflexivity. }
      destruct (evals (sf_expr f) (bmove (sf_args f) A0 D t)) as [|v [|v' l]]; try discriminate. simpl. lra.
    - replace (rsum _) with (rsum (map (fun w => sumn (size w) (fun i => sder f A0 w i 0 * D w i)) W)); [exact HJ|].
      rewrite map_map. apply rsum_map_ext. intros w Hw. cbn [fst snd].
      rewrite (base_of_gen (go fname) eq_refl eq_refl) by (now apply (sw_in _ _ _ SW)).
      rewrite <- sumn_rsum. apply sumn_ext. intros i Hi. f_equal. unfold sder, evals. rewrite HO. cbn [prodn fold_right].
      rewrite (nth_map_d _ _ _ zero_expr).
      + do 2 f_equal. lia.
      + rewrite (sw_d1 _ _ _ SW) by auto. rewrite HO. cbn. lia.
  Qed.
End Laws.
