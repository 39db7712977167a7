(** Model of ceacoest/modelling/symoptim.py. *)
From Coq Require Import String List ZArith Bool Arith Lia.
From Verif Require Import Py NdArray OptimModel GenModel.
Import ListNotations.
Local Open Scope string_scope.
Local Open Scope list_scope.

Section Sym.
  Context {T : Type} {NT : Num T}.

  (** ** What symoptim.py uses of sympy and sym2num (outside the repository) *)

  (** A sympy expression: the outcome of [val != 0] (a structural test) and
      the value the generated code computes from the argument arrays. *)
  Record sexpr := SE { se_nz : bool; se_eval : list (list T) -> T }.

  (** A method of the symbolic model: its arguments
      ([function_codegen_arguments]), the shape and the raveled elements of
      [default_function_output], and the raveled elements of what
      [add_derivative] makes of it (shape: those of [wrt], then the output's). *)
  Record sfun := SF {
    sf_args : list string;
    sf_out : shape;
    sf_expr : list sexpr;
    sf_deriv : list string -> list sexpr
  }.

  (** Description dictionaries (symoptim.py:59-62, 90-93): names by [wrt]. *)
  Record sdesc := SDesc {
    sd_shape : shape; sd_grad : sdict string;
    sd_jac : list (tkey * string); sd_hess : list (tkey * string)
  }.

  (** symoptim.py:21-42.  [m_attr] holds the symbolic functions set as
      attributes (by [add_derivative] and line 154).  The set
      [generate_functions] only selects what is written out and is left out. *)
  Record smodel := SM {
    m_vars : sdict shape;
    m_dec : list string;
    m_fun : sdict sfun;
    m_cons : sdict sdesc;
    m_objs : sdict sdesc;
    m_nzind : sdict (list (list Z));
    m_nnz : sdict nat;
    m_attr : sdict (list sexpr)
  }.

  Definition set_cons (m : smodel) c := SM (m_vars m) (m_dec m) (m_fun m) c (m_objs m) (m_nzind m) (m_nnz m) (m_attr m).
  Definition set_objs (m : smodel) c := SM (m_vars m) (m_dec m) (m_fun m) (m_cons m) c (m_nzind m) (m_nnz m) (m_attr m).
  Definition set_nz (m : smodel) i n a := SM (m_vars m) (m_dec m) (m_fun m) (m_cons m) (m_objs m) i n a.

  (** symoptim.py:163-165 *)
  Definition first_derivative_name (fname w : string) : string := ("d" ++ fname ++ "_d" ++ w)%string.
  (** symoptim.py:167-175, for a pair *)
  Definition second_derivative_name (fname a b : string) : string :=
    if String.eqb a b then ("d2" ++ fname ++ "_d" ++ a ++ "2")%string
    else ("d2" ++ fname ++ "_d" ++ a ++ "_d" ++ b)%string.

  (** Multi-indices in the order of [np.ndenumerate]. *)
  Fixpoint ndindex (s : shape) : list (list nat) :=
    match s with
    | [] => [[]]
    | d :: s' => flat_map (fun i => map (cons i) (ndindex s')) (seq 0 d)
    end.

  (** symoptim.py:129-132 *)
  Definition keepind (wrt : list string) (ind : list nat) : bool :=
    match wrt with
    | [a; b] => if String.eqb a b then (nth 0 ind 0 <=? nth 1 ind 0)%nat else true
    | _ => true
    end.

  (** symoptim.py:135-140 *)
  Definition nonzeros (wrt : list string) (dims : shape) (expr : list sexpr) : list (list nat * sexpr) :=
    filter (fun ie => keepind wrt (fst ie) && se_nz (snd ie)) (combine (ndindex dims) expr).

  (** symoptim.py:144: [.T.reshape(len(wrt) + 1, -1)] *)
  Definition transpose_ind (rows : nat) (inds : list (list nat)) : list (list Z) :=
    map (fun r => map (fun ind => Z.of_nat (nth r ind O)) inds) (seq 0 rows).

  (** symoptim.py:117-161 (sel and gen have their defaults everywhere). *)
  Definition add_sparse_derivative (m : smodel) (fname : string) (wrt : list string) (dname : string)
    : res (smodel * nat) :=
    let* f := dlookup String.eqb (m_fun m) fname in
    let fsize := prodn (sf_out f) in
    let* wrt_sizes := mapM (fun w => let* s := dlookup String.eqb (m_vars m) w in Ok (prodn s)) wrt in
    let expr := sf_deriv f wrt in
    let attr := dset String.eqb (m_attr m) dname expr in
    let dims := wrt_sizes ++ [fsize] in
    if negb (List.length expr =? prodn dims)%nat then Err ValueError else
    let nz := nonzeros wrt dims expr in
    Ok (set_nz m
          (dset String.eqb (m_nzind m) dname (transpose_ind (S (List.length wrt)) (map fst nz)))
          (dset String.eqb (m_nnz m) dname (List.length nz))
          (dset String.eqb attr (dname ++ "_val")%string (map snd nz)),
        List.length nz).

  (** [itertools.combinations_with_replacement(l, 2)] *)
  Fixpoint pairs2 {X} (l : list X) : list (X * X) :=
    match l with
    | [] => []
    | a :: l' => map (fun b => (a, b)) l ++ pairs2 l'
    end.

  (** Registration loops (symoptim.py:82-85, 105-108, 112-115): keep the
      names of the derivatives with nonzero entries. *)
  Definition add_sparse (fname : string) (st : smodel * list (tkey * string)) (wd : tkey * string)
    : res (smodel * list (tkey * string)) :=
    let* mn := add_sparse_derivative (fst st) fname (fst wd) (snd wd) in
    Ok (fst mn, if (snd mn =? 0)%nat then snd st else snd st ++ [wd]).

  Definition first_names (fname : string) (wrt : list string) : list (tkey * string) :=
    map (fun w => ([w], first_derivative_name fname w)) wrt.
  Definition second_names (fname : string) (wrt : list string) : list (tkey * string) :=
    map (fun ab => ([fst ab; snd ab], second_derivative_name fname (fst ab) (snd ab))) (pairs2 wrt).

  (** symoptim.py:87-115.  [wrt] is the order in which Python iterates over
      [set(args).intersection(self.decision)]. *)
  Definition add_constraint (m : smodel) (wrt : list string) (fname : string) (derivatives : nat)
    : res smodel :=
    let* f := dlookup String.eqb (m_fun m) fname in
    let* st1 := (if (1 <=? derivatives)%nat then foldM (add_sparse fname) (m, []) (first_names fname wrt)
                 else Ok (m, [])) in
    let* st2 := (if (2 <=? derivatives)%nat then foldM (add_sparse fname) (fst st1, []) (second_names fname wrt)
                 else Ok (fst st1, [])) in
    Ok (set_cons (fst st2)
          (dset String.eqb (m_cons (fst st2)) fname (SDesc (sf_out f) [] (snd st1) (snd st2)))).

  (** symoptim.py:73-78: gradient functions. *)
  Definition add_grad (m : smodel) (fname : string) (wrt : list string) : res (smodel * sdict string) :=
    let* f := dlookup String.eqb (m_fun m) fname in
    Ok (set_nz m (m_nzind m) (m_nnz m)
          (fold_left (fun a w => dset String.eqb a (first_derivative_name fname w) (sf_deriv f [w])) wrt (m_attr m)),
        map (fun w => (w, first_derivative_name fname w)) wrt).

  (** symoptim.py:58-85 *)
  Definition add_objective (m : smodel) (wrt : list string) (fname : string) (derivatives : nat)
    : res smodel :=
    let* st1 := (if (1 <=? derivatives)%nat then add_grad m fname wrt else Ok (m, [])) in
    let* st2 := (if (2 <=? derivatives)%nat then foldM (add_sparse fname) (fst st1, []) (second_names fname wrt)
                 else Ok (fst st1, [])) in
    Ok (set_objs (fst st2)
          (dset String.eqb (m_objs (fst st2)) fname (SDesc [] (snd st1) [] (snd st2)))).

  (** ** The generated class: symoptim.py:44-56 read by genoptim.py:12-30 *)
  Definition evals (l : list sexpr) (A : list (list T)) : list T := map (fun e => se_eval e A) l.

  Definition gen_deriv (m : smodel) (wd : tkey * string) : res (gderiv T) :=
    let* nnz := dlookup String.eqb (m_nnz m) (snd wd) in
    let* ind := dlookup String.eqb (m_nzind m) (snd wd) in
    let* val := dlookup String.eqb (m_attr m) (snd wd ++ "_val")%string in
    Ok (GD (fst wd) nnz ind (evals val)).

  Definition generate (m : smodel) (d : sdesc) (fname : string) : res (gfun T) :=
    let* f := dlookup String.eqb (m_fun m) fname in
    let* bases := mapM (dlookup String.eqb (m_vars m)) (sf_args f) in
    let* base_shapes := mapM (fun w => let* s := dlookup String.eqb (m_vars m) w in Ok (w, s)) (m_dec m) in
    let* grad := mapM (fun wd => let* e := dlookup String.eqb (m_attr m) (snd wd) in Ok (fst wd, evals e)) (sd_grad d) in
    let* jac := mapM (gen_deriv m) (sd_jac d) in
    let* hess := mapM (gen_deriv m) (sd_hess d) in
    Ok (GF fname (sf_args f) bases (sd_shape d) (evals (sf_expr f)) grad jac hess base_shapes).

  Definition generate_constraint (m : smodel) (fname : string) : res (gfun T) :=
    let* d := dlookup String.eqb (m_cons m) fname in generate m d fname.
  Definition generate_objective (m : smodel) (fname : string) : res (gfun T) :=
    let* d := dlookup String.eqb (m_objs m) fname in generate m d fname.
End Sym.
Arguments sexpr T : clear implicits.
Arguments sfun T : clear implicits.
Arguments smodel T : clear implicits.
