(** C82: the discretised models on arrays, the sizes they declare and their
    construction. *)
From Coq Require Import String Ascii.
From Verif Require Import Py DictLemmas.
From mathcomp Require Import all_ssreflect all_algebra.
From Verif Require Import KalModel NpModel NpLemmas SdeModel NdSdeModel NdSdeLemmas SymSdeModel.
Set Implicit Arguments.
Unset Strict Implicit.
Unset Printing Implicit Defensive.
Import Order.TTheory GRing.Theory Num.Theory.
Local Open Scope ring_scope.

Section SymSde.
Variable F : rcfType.
Notation nd := (nd F).

(** An array holds a vector, a matrix, or a matrix of vectors. *)
Definition is_vec n (A : nd) (v : 'cV[F]_n) := shape A = [:: n] /\ forall i : 'I_n, get A [:: nat_of_ord i] = v i 0.
Definition is_mat n m (A : nd) (M : 'M[F]_(n, m)) :=
  shape A = [:: n; m] /\ forall (i : 'I_n) (j : 'I_m), get A [:: nat_of_ord i; nat_of_ord j] = M i j.
Definition is_ten n m p (A : nd) (T : 'I_n -> 'I_m -> 'cV[F]_p) :=
  shape A = [:: n; m; p] /\ forall (i : 'I_n) (j : 'I_m) (l : 'I_p), get A [:: nat_of_ord i; nat_of_ord j; nat_of_ord l] = T i j l 0.

(** ** Operations *)

Lemma scale_vec n A (v : 'cV[F]_n) c : is_vec A v -> is_vec (nd_scale c A) (c *: v).
Proof. by case=> HA H; split=> // i; rewrite /= H mxE. Qed.
Lemma scale_mat n m A (M : 'M[F]_(n, m)) c : is_mat A M -> is_mat (nd_scale c A) (c *: M).
Proof. by case=> HA H; split=> // i j; rewrite /= H mxE. Qed.
Lemma add_vec n A B (v w : 'cV[F]_n) : is_vec A v -> is_vec B w -> exists2 C, nd_add A B = Ok C & is_vec C (v + w).
Proof.
case=> HA H [HB H']; rewrite /nd_add /map2 HA HB bcast_same /=; eexists; first by [].
by split=> // i /=; rewrite !bidx_id /= ?ltn_ord // H H' mxE.
Qed.
Lemma add_mat n m A B (v w : 'M[F]_(n, m)) : is_mat A v -> is_mat B w -> exists2 C, nd_add A B = Ok C & is_mat C (v + w).
Proof.
case=> HA H [HB H']; rewrite /nd_add /map2 HA HB bcast_same /=; eexists; first by [].
by split=> // i j /=; rewrite !bidx_id /= ?ltn_ord // H H' mxE.
Qed.
Lemma transposed_mat n m A (M : 'M[F]_(n, m)) : is_mat A M -> is_mat (transposed A) M^T.
Proof. by case=> HA H; split=> [|i j]; rewrite /= ?HA // /rev /= H mxE. Qed.
Lemma matmul_vec n m A B (M : 'M[F]_(n, m)) (v : 'cV[F]_m) : is_mat A M -> is_vec B v -> exists2 C, matmul A B = Ok C & is_vec C (M *m v).
Proof.
case=> HA H [HB H']; rewrite /matmul HA HB eqxx; eexists; first by [].
by split=> // i /=; rewrite mxE; apply: eq_bigr => k _; rewrite H H'.
Qed.
Lemma matmul_mat n m p A B (M : 'M[F]_(n, m)) (N : 'M[F]_(m, p)) : is_mat A M -> is_mat B N -> exists2 C, matmul A B = Ok C & is_mat C (M *m N).
Proof.
case=> HA H [HB H']; rewrite /matmul HA HB eqxx; eexists; first by [].
by split=> // i j /=; rewrite mxE; apply: eq_bigr => k _; rewrite H H'.
Qed.
Lemma hstack_mat n m p A B (M : 'M[F]_(n, m)) (N : 'M[F]_(n, p)) : is_mat A M -> is_mat B N -> exists2 C, hstack A B = Ok C & is_mat C (row_mx M N).
Proof.
case=> HA H [HB H']; rewrite /hstack HA HB eqxx; eexists; first by [].
split=> // i j /=; rewrite mxE; case: splitP => k Hk; rewrite Hk ?H //.
by rewrite addKn H'.
Qed.

(** ** The accumulation *)

Lemma sum_indices n s (f : seq nat -> F) : \sum_(r <- indices (n :: s)) f r = \sum_(i < n) \sum_(r <- indices s) f (nat_of_ord i :: r).
Proof.
have -> : indices (n :: s) = flatten [seq [seq i :: r | r <- indices s] | i <- index_iota 0 n] by rewrite /index_iota subn0.
rewrite big_flatten /= big_map big_mkord.
by apply: eq_bigr => i _; rewrite big_map.
Qed.

Lemma in_rangeE s i : in_range s i = inb s i. Proof. by elim: s i => [|n s IH] [|k i] //=; rewrite IH. Qed.

Lemma L0fE nx nw g1 d1 j1 t1 f1 (g : 'M[F]_(nx, nw)) (d f : 'cV[F]_nx) (J : 'M[F]_nx) T :
  is_mat g1 g -> is_vec d1 d -> is_mat j1 J -> is_ten t1 T -> is_vec f1 f ->
  exists2 L, nd_L0f g1 d1 j1 t1 f1 nx nw = Ok L &
    is_vec L (\col_i ((d + J^T *m f) i 0 + \sum_j \sum_p \sum_q 2%:R^-1 * g p j * g q j * T p q i 0)).
Proof.
move=> Hg Hd HJ HT Hf; rewrite /nd_L0f.
have [v -> Hv] := matmul_vec (transposed_mat HJ) Hf; cbn [bind].
have [L0 -> H0] := add_vec Hd Hv; cbn [bind].
pose term (ix : seq nat) := let i := nth 0%N ix 0 in let j := nth 0%N ix 1 in let p := nth 0%N ix 2 in let q := nth 0%N ix 3 in
  2%:R^-1 * get g1 [:: p; j] * get g1 [:: q; j] * get t1 [:: p; q; i].
pose step (L0f : nd) (ix : seq nat) := let i := nth 0%N ix 0 in let j := nth 0%N ix 1 in let p := nth 0%N ix 2 in let q := nth 0%N ix 3 in
  let* gp := getitem g1 [:: p; j] in let* gq := getitem g1 [:: q; j] in let* d := getitem t1 [:: p; q; i] in
  iaddat L0f [:: i] (2%:R^-1 * gp * gq * d).
have K l : (forall ix, ix \in l -> inb [:: nx; nw; nx; nx] ix) -> forall L, shape L = [:: nx] ->
  exists2 L', foldM step L l = Ok L' &
    shape L' = [:: nx] /\ forall i, get L' [:: i] = get L [:: i] + \sum_(ix <- l | nth 0%N ix 0 == i) term ix.
  elim: l => [|ix l IH] Hl L HL; first by exists L => //; split=> // i; rewrite big_nil addr0.
  have [L1 E1 [HL1 G1]] : exists2 L1, step L ix = Ok L1 & shape L1 = [:: nx] /\ forall i, get L1 [:: i] = if nth 0%N ix 0 == i then get L [:: i] + term ix else get L [:: i].
    have := Hl ix (mem_head _ _); case: ix {Hl} => [|i [|j [|p [|q [|]]]]] //=; rewrite ?andbF // => /and5P[Hi Hj Hp Hq _].
    rewrite /step /getitem !in_rangeE (proj1 Hg) (proj1 HT) /= Hi Hj Hp Hq; cbn [bind andb].
    rewrite /iaddat in_rangeE HL /= Hi; eexists; first by [].
    by split=> // i' /=; rewrite eqseq_cons eqxx andbT eq_sym.
  have [|L' E' [HL' G]] := IH _ L1 HL1; first by move=> ix' Hx; apply: Hl; rewrite inE Hx orbT.
  exists L'; first by rewrite /= E1.
  by split=> // i'; rewrite G G1 big_cons; case: ifP => // _; rewrite -addrA.
have [|L E [HL GL]] := K (indices [:: nx; nw; nx; nx]) _ L0 (proj1 H0); first by move=> ix; rewrite mem_indices.
exists L; first exact: E.
split=> // i; rewrite GL (proj2 H0) [RHS]mxE; congr (_ + _).
rewrite big_mkcond sum_indices (bigD1 i) // -[LHS]/(_ + _) [X in _ + X]big1 ?addr0; last first.
  by move=> i' ne; apply: big1 => r _; rewrite [nth _ _ _]/=; case: eqP => // Ei; case/eqP: ne; apply: val_inj.
rewrite sum_indices; apply: eq_bigr => j _; rewrite sum_indices; apply: eq_bigr => p _; rewrite sum_indices; apply: eq_bigr => q _.
by rewrite big_seq1 /term /= eqxx !(proj2 Hg) (proj2 HT).
Qed.

(** ** The functions *)

(** The functions of the symbolic model return arrays that hold those of [M]. *)
Variables (nx nw ny : nat) (ct : nct F) (M : ct_model F nx nw ny) (dt : F).
Definition array_model : Prop := forall t X x, is_vec X x ->
  [/\ is_vec (nc_f ct t X) (ct_f M t x), is_mat (nc_g ct t X) (ct_g M t x), is_vec (nc_h ct t X) (ct_h M t x)
    & [/\ is_vec (nc_df_dt ct t X) (ct_df_dt M t x), is_mat (nc_df_dx ct t X) (ct_df_dx M t x) & is_ten (nc_d2f_dx2 ct t X) (ct_d2f_dx2 M t x)]].
Hypothesis HM : array_model.

Theorem C82_euler k X x : is_vec X x ->
  (exists2 A, nd_euler_f ct dt k X = Ok A & is_vec A (euler_f M dt k x)) /\
  (exists2 A, nd_euler_g ct dt k X = Ok A & is_mat A (euler_g M dt k x)) /\
  is_vec (nd_sde_h ct dt k X) (sde_h M dt k x).
Proof.
move=> HX; have [Hf Hg _ _] := HM (dt * k%:R) HX; have [_ _ Hh _] := HM (k%:R * dt) HX; split; last split=> //.
- exact: (add_vec (scale_vec dt Hf) HX).
- by eexists; [reflexivity|exact: scale_mat].
Qed.

Theorem C82_as15 k X x : is_vec X x ->
  (exists2 A, nd_as15_f ct dt k X = Ok A & is_vec A (as15_f M dt k x)) /\
  (exists2 A, nd_as15_g ct dt k X = Ok A & is_mat A (as15_g M dt k x)).
Proof.
move=> HX; have [Hf Hg _ [Hd HJ HT]] := HM (dt * k%:R) HX; split.
- rewrite /nd_as15_f /unpack2 (proj1 Hg); cbn [bind].
  have [L -> HL] := L0fE Hg Hd HJ HT Hf; cbn [bind].
  have [r -> Hr] := add_vec (scale_vec dt Hf) (scale_vec (2%:R^-1 * dt ^+ 2) HL); cbn [bind].
  exact: add_vec Hr HX.
- rewrite /nd_as15_g /unpack2 (proj1 Hg); cbn [bind].
  have [L -> HL] := matmul_mat (transposed_mat HJ) Hg; cbn [bind].
  have [r -> Hr] := add_mat (scale_mat (Num.sqrt dt) Hg) (scale_mat (2%:R^-1 * (dt * Num.sqrt dt)) HL); cbn [bind].
  exact: hstack_mat Hr (scale_mat _ HL).
Qed.

(** [Q] is the square matrix [g g^T] of the class's own gain. *)
Theorem C82_Q k X x : is_vec X x ->
  (exists2 A, nd_sde_Q (nd_euler_g ct dt) k X = Ok A & is_mat A (sde_Q (euler_g M dt k x))) /\
  (exists2 A, nd_sde_Q (nd_as15_g ct dt) k X = Ok A & is_mat A (sde_Q (as15_g M dt k x))).
Proof.
move=> HX; rewrite /nd_sde_Q; split.
- by have [_ [[A -> HA] _]] := C82_euler k HX; exact: matmul_mat HA (transposed_mat HA).
- by have [_ [A -> HA]] := C82_as15 k HX; exact: matmul_mat HA (transposed_mat HA).
Qed.

(** ** Sizes *)

(** The sizes assigned to the generated class are those of what its functions
    return: the order 1.5 scheme has twice as many noises. *)
Theorem C82_sizes (xs ys : seq string) k0 X0 : size xs = nx -> size ys = ny -> shape X0 = [:: nx] ->
  sde_assignments xs ys (nd_euler_g ct dt) k0 X0 = Ok (Sizes nx ny nw) /\
  sde_assignments xs ys (nd_as15_g ct dt) k0 X0 = Ok (Sizes nx ny (nw + nw)).
Proof.
move=> Hxs Hys HX; rewrite /sde_assignments Hxs Hys.
have HX' : is_vec X0 (\col_i get X0 [:: nat_of_ord i] : 'cV_nx) by split=> // i; rewrite mxE.
have [_ [[A -> [HA _]] _]] := C82_euler k0 HX'; have [_ [B -> [HB _]]] := C82_as15 k0 HX'.
by cbn [bind]; rewrite HA HB.
Qed.

(** With these sizes and functions [trans_rvs] of the generated class draws a
    vector as long as the gain has columns, and returns [f + g w]. *)
Lemma draws m (sd : gensde F) randn k X (f : 'cV[F]_nx) (g : 'M[F]_(nx, m)) :
  is_vec (gs_f sd k X) f -> is_mat (gs_g sd k X) g -> gs_nw sd = m -> shape (randn [:: m]) = [:: m] ->
  exists2 A, nd_trans_rvs sd randn k X None = Ok A & is_vec A (f + g *m \col_j get (randn [:: m]) [:: nat_of_ord j]).
Proof.
move=> [Sf Gf] [Sg Gg] Hw Hr; rewrite /nd_trans_rvs Sf Hw /=.
have [G [-> [SG GG]]] := einsum_mv (s := [::]) (t := [::]) Sg Hr (bcast_same [::]); cbn [bind].
have [|A -> HA] := add_vec (A := gs_f sd k X) (B := G) (v := f) (w := g *m \col_j get (randn [:: m]) [:: nat_of_ord j]) (conj Sf Gf); last by exists A.
split=> // i; rewrite (GG [::]) // mxE; apply: eq_bigr => j _; by rewrite /= Gg mxE.
Qed.

Theorem C82_draws (euler : bool) (xs ys : seq string) k0 X0 sz (sd : gensde F) randn k X x f g :
  size xs = nx -> size ys = ny -> shape X0 = [:: nx] -> is_vec X x ->
  sde_assignments xs ys (if euler then nd_euler_g ct dt else nd_as15_g ct dt) k0 X0 = Ok sz ->
  (if euler then nd_euler_f ct dt else nd_as15_f ct dt) k X = Ok f ->
  (if euler then nd_euler_g ct dt else nd_as15_g ct dt) k X = Ok g ->
  gs_f sd k X = f -> gs_g sd k X = g -> gs_nw sd = sz_nw sz -> (forall s, shape (randn s) = s) ->
  exists2 A, nd_trans_rvs sd randn k X None = Ok A &
    if euler then is_vec A (euler_f M dt k x + euler_g M dt k x *m \col_j get (randn [:: nw]) [:: nat_of_ord j])
    else is_vec A (as15_f M dt k x + as15_g M dt k x *m \col_j get (randn [:: nw + nw]%N) [:: nat_of_ord j]).
Proof.
move=> Hxs Hys H0 HX; have [S1 S2] := C82_sizes k0 Hxs Hys H0.
have [[A1 E1 V1] [[B1 E1' M1] _]] := C82_euler k HX; have [[A2 E2 V2] [B2 E2' M2]] := C82_as15 k HX.
case: euler; rewrite ?S1 ?S2 ?E1 ?E1' ?E2 ?E2' => -[<-] [Ef] [Eg] Hf Hg /= Hw Hr.
- by apply: draws => //; rewrite ?Hf ?Hg -?Ef -?Eg.
- by apply: draws => //; rewrite ?Hf ?Hg -?Ef -?Eg.
Qed.

(** A gain that is not a matrix: the order 1.5 functions raise ValueError at
    every state; with the Euler scheme the sizes cannot be read if it has
    fewer axes. *)
Theorem C82_not_matrix (ct' : nct F) k X : size (shape (nc_g ct' (dt * k%:R) X)) <> 2%N ->
  [/\ nd_as15_f ct' dt k X = Err ValueError, nd_as15_g ct' dt k X = Err ValueError
    & (size (shape (nc_g ct' (dt * k%:R) X)) < 2)%N -> forall xs ys, sde_assignments xs ys (nd_euler_g ct' dt) k X = Err IndexError].
Proof.
move=> H; rewrite /nd_as15_f /nd_as15_g /unpack2 /sde_assignments /nd_euler_g /=.
by case: (shape _) H => [|n [|m [|p l]]].
Qed.
End SymSde.

(** ** Construction *)
Local Open Scope string_scope.

(** The dictionary of a discretised model is a new object: that of the
    continuous-time model with the entry [dt]; every dictionary that existed
    is as before.  The other variables are those of the continuous-time
    model. *)
Theorem C82_variables (h : heap) (ct : ctobj) o h' : (co_self ct < size h)%N -> base_init h ct = (o, h') ->
  [/\ forall l, (l < size h)%N -> nth [::] h' l = nth [::] h l,
      (size h <= do_self o)%N,
      forall n, dget String.eqb (nth [::] h' (do_self o)) n =
        if String.eqb n "dt" then Some "dt"%string else dget String.eqb (nth [::] h (co_self ct)) n
    & [/\ do_k o = "k"%string, do_x o = co_x ct, do_y o = co_y ct & do_ct o = ct]].
Proof.
rewrite /base_init => Hl [<- <-]; split=> //.
- by move=> l L; rewrite /upd nth_set_nth /= ltn_eqF // nth_rcons L.
- by move=> n; rewrite /upd nth_set_nth /= eqxx nth_rcons ltnn eqxx (dget_dset _ String.eqb_spec).
Qed.

Notation fun_of ct n := (dget String.eqb (co_funs ct) n).
Lemma ensureE ct fn wrt n ct' : ensure ct fn wrt n = Ok ct' ->
  [/\ fun_of ct' n = Some (odflt (Deriv fn wrt) (fun_of ct n)), forall m, m <> n -> fun_of ct' m = fun_of ct m
    & [/\ co_self ct' = co_self ct, co_x ct' = co_x ct & co_y ct' = co_y ct]].
Proof.
rewrite /ensure /dmem /add_derivative; case E: (fun_of ct n) => [v|]; first by move=> [<-]; rewrite E.
case: (fun_of ct fn) => [w|] // [<-]; cbn [co_funs]; split=> // [|m /String.eqb_neq Hm];
  by rewrite (dget_dset _ String.eqb_spec) ?Hm // String.eqb_refl.
Qed.
Lemma ensure_total ct fn wrt n : fun_of ct fn <> None -> exists ct', ensure ct fn wrt n = Ok ct'.
Proof. by rewrite /ensure /add_derivative => H; case: (dmem _ _ _); last case: (fun_of ct fn) H => [w|//]; eexists. Qed.
Lemma ensure_id ct fn wrt n : fun_of ct n <> None -> ensure ct fn wrt n = Ok ct.
Proof. by rewrite /ensure /dmem; case: (fun_of ct n). Qed.

(** The order 1.5 model finds the functions it needs: one that the user
    defined or that was added before is kept, another is the derivative of
    [f], respectively of the model's [df_dx]; no other attribute changes. *)
Theorem C82_as15_functions (h : heap) (ct : ctobj) o h' : as15_init h ct = Ok (o, h') ->
  let had n := dget String.eqb (co_funs ct) n in
  let has n := dget String.eqb (co_funs (do_ct o)) n in
  [/\ has "df_dt"%string = Some (odflt (Deriv "f" "t") (had "df_dt"%string)),
      has "df_dx"%string = Some (odflt (Deriv "f" "x") (had "df_dx"%string)),
      has "d2f_dx2"%string = Some (odflt (Deriv "df_dx" "x") (had "d2f_dx2"%string)),
      forall n, n <> "df_dt"%string -> n <> "df_dx"%string -> n <> "d2f_dx2"%string -> has n = had n
    & [/\ co_self (do_ct o) = co_self ct, co_x (do_ct o) = co_x ct, co_y (do_ct o) = co_y ct & (do_self o, h') = (do_self (base_init h ct).1, (base_init h ct).2)]].
Proof.
rewrite /as15_init; case: (base_init h ct) => b hb.
case E1: (ensure ct _ _ _) => [c1|] //; cbn [bind]; case E2: (ensure c1 _ _ _) => [c2|] //; cbn [bind].
case E3: (ensure c2 _ _ _) => [c3|] //; cbn [bind] => -[<- <-]; cbn [do_ct do_self fst snd].
have [A1 B1 [S1 X1 Y1]] := ensureE E1; have [A2 B2 [S2 X2 Y2]] := ensureE E2; have [A3 B3 [S3 X3 Y3]] := ensureE E3.
split.
- by rewrite B3 // B2.
- by rewrite B3 // A2 B1.
- by rewrite A3 B2 // B1.
- by move=> n n1 n2 n3; rewrite B3 // B2 // B1.
- by rewrite S3 S2 S1 X3 X2 X1 Y3 Y2 Y1.
Qed.

(** Construction succeeds whenever the model has [f], and constructing a
    second model from the same one adds nothing. *)
Theorem C82_as15_total (h : heap) (ct : ctobj) : dget String.eqb (co_funs ct) "f" <> None ->
  exists o h', as15_init h ct = Ok (o, h') /\ forall h2, exists o2 h2', as15_init h2 (do_ct o) = Ok (o2, h2') /\ do_ct o2 = do_ct o.
Proof.
move=> Hf; have [o [h' E]] : exists o h', as15_init h ct = Ok (o, h').
  rewrite /as15_init; case: (base_init h ct) => b hb.
  have [c1 E1] := @ensure_total ct "f" "t" "df_dt" Hf; rewrite E1; cbn [bind]; have [_ B1 _] := ensureE E1.
  have [|c2 E2] := @ensure_total c1 "f" "x" "df_dx"; first by rewrite B1.
  rewrite E2; cbn [bind]; have [A2 B2 _] := ensureE E2.
  have [|c3 ->] := @ensure_total c2 "df_dx" "x" "d2f_dx2"; first by rewrite A2.
  by do 2 eexists.
exists o, h'; split=> // h2; have [H1 H2 H3 _ _] := C82_as15_functions E.
rewrite /as15_init; case: (base_init h2 (do_ct o)) => b hb.
rewrite ensure_id; last by rewrite H1.
cbn [bind]; rewrite ensure_id; last by rewrite H2.
cbn [bind]; rewrite ensure_id; last by rewrite H3.
by do 2 eexists.
Qed.

(** A model without [f] and without its time derivative is rejected with
    AttributeError. *)
Theorem C82_as15_missing (h : heap) (ct : ctobj) : dget String.eqb (co_funs ct) "f" = None -> dget String.eqb (co_funs ct) "df_dt" = None ->
  as15_init h ct = Err AttributeError.
Proof. by move=> Hf Hd; rewrite /as15_init /base_init; cbn [bind]; rewrite /ensure /dmem Hd /add_derivative Hf. Qed.

(** A Duffing-like model of two states, one noise, one output; its variables. *)
Example C82_nonvacuous (F : rcfType) :
  let M : ct_model F 2 1 1 := CT (fun _ x => x) (fun _ _ => const_mx 1) (fun _ x => const_mx (x 0 0)) (fun _ _ => 0) (fun _ _ => 1%:M) (fun _ _ _ _ => 0) in
  let ct : nct F := NCT (fun _ X => X) (fun _ _ => ND [:: 2; 1]%N (fun=> 1)) (fun _ X => ND [:: 1]%N (fun=> get X [:: 0%N])) (zeros F [:: 1; 1]%N)
    (fun _ _ => zeros F [:: 2]%N) (fun _ _ => ND [:: 2; 2]%N (fun i => (nth 0%N i 0 == nth 0%N i 1)%:R)) (fun _ _ => zeros F [:: 2; 2; 2]%N) in
  let co := CTObj 0 [:: "x"; "v"] [:: "x_meas"] [:: ("f", User); ("g", User); ("h", User); ("df_dx", User)]%string in
  let h := [:: [:: ("alpha", "alpha")]]%string in
  array_model ct M /\
  exists o h', as15_init h co = Ok (o, h') /\
    nth [::] h' 0 = [:: ("alpha", "alpha")]%string /\ nth [::] h' (do_self o) = [:: ("alpha", "alpha"); ("dt", "dt")]%string /\
    co_funs (do_ct o) = [:: ("f", User); ("g", User); ("h", User); ("df_dx", User); ("df_dt", Deriv "f" "t"); ("d2f_dx2", Deriv "df_dx" "x")]%string.
Proof.
split; last by do 2 eexists.
move=> t X x HX; split=> //.
- by split=> // i j; rewrite mxE.
- by split=> // i /=; rewrite mxE (proj2 HX 0).
- by split; split=> // i *; rewrite /= mxE.
Qed.
