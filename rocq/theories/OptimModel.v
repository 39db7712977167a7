(** Model of ceacoest/optim.py. *)
From Coq Require Import String List ZArith Bool Arith Lia.
From Verif Require Import Py NdArray.
Import ListNotations.

(** Two's complement 32-bit wrap-around of [np.intc]. *)
Definition intc (z : Z) : Z := ((z + 2 ^ 31) mod 2 ^ 32 - 2 ^ 31)%Z.

(** Exact product of a shape, in [Z]. *)
Definition prodZ (s : shape) : Z := fold_right Z.mul 1%Z (map Z.of_nat s).

(** optim.py:276-284, class Component (and its subclass Decision, 322-323).
    Shapes are tuples of naturals; negative dimensions are not modelled. *)
Record comp := Comp { c_shape : shape; c_off : Z }.

(** optim.py:292-295, Component.size = np.prod(shape, dtype=np.intc).
    The product of wrapped factors equals the wrapped product. *)
Definition csize (c : comp) : Z := intc (prodZ (c_shape c)).

(** optim.py:297-300, Component.slice *)
Definition cslice (c : comp) : Z * Z := (c_off c, c_off c + csize c)%Z.

Section Optim.
  Context {T : Type} {NT : Num T}.
  Open Scope num_scope.

  (** optim.py:302-304, Component.unpack_from *)
  Definition c_unpack (c : comp) (vec : list T) : res (arr T) :=
    let (a, b) := cslice c in reshape (pyslice vec a b) (c_shape c).

  (** optim.py:306-309, Component.add_to.  The destination is a 1-D array by
      typing; the returned list is its content after the call. *)
  Definition c_add_to (c : comp) (dest : list T) (value : arr T) : res (list T) :=
    let* _ := passert (c_off c + csize c <=? Z.of_nat (length dest))%Z in
    let* v := broadcast_to 0 value (c_shape c) in
    let (a, b) := cslice c in pyslice_upd nadd dest a b (adat v).

  (** optim.py:311-314, Component.pack_into *)
  Definition c_pack_into (c : comp) (dest : list T) (value : arr T) : res (list T) :=
    let* _ := passert (c_off c + csize c <=? Z.of_nat (length dest))%Z in
    let* v := broadcast_to 0 value (c_shape c) in
    let (a, b) := cslice c in pyslice_upd (fun _ new => new) dest a b (adat v).

  (** optim.py:316-319, Component.convert_ind *)
  Definition c_convert (c : comp) (ind : list Z) : res (list Z) :=
    Ok (map (fun i => i + c_off c)%Z ind).

  (** The interface [Problem] expects of a variable specification
      (optim.py:57-65, 80, 85, 135, 157): an object with shape, unpack_from,
      add_to and convert_ind. *)
  Record spec := Spec {
    s_shape : shape;
    s_unpack : list T -> res (arr T);
    s_add_to : list T -> arr T -> res (list T);
    s_convert : list Z -> res (list Z)
  }.

  (** A Decision used as a variable specification. *)
  Definition dec_spec (c : comp) : spec :=
    Spec (c_shape c) (c_unpack c) (c_add_to c) (c_convert c).

  (** The interface [Problem] expects of a registered function object: the
      call, and the sparse derivative callbacks of genoptim.py:41-208.  Index
      arrays are lists of raveled rows.  [f_name] is [type(fun).__name__]. *)
  Record fn := Fn {
    f_name : string;
    f_sig : list string;
    f_call : list (arr T) -> res (arr T);
    f_grad : list (arr T) -> res (sdict (arr T));
    f_jac_nnz : sdict shape -> shape -> res nat;
    f_jac_ind : sdict shape -> shape -> res (list (tkey * list (list Z)));
    f_jac_val : list (arr T) -> res (list (tkey * arr T));
    f_hess_nnz : sdict shape -> shape -> res nat;
    f_hess_ind : sdict shape -> shape -> res (list (tkey * list (list Z)));
    f_hess_val : list (arr T) -> res (list (tkey * arr T))
  }.

  (** optim.py:326-342, OptimizationFunction (and Objective 417-422). *)
  Record optfun := OptFun {
    o_fun : fn;
    o_args : list string;
    o_shape : shape;
    o_renamed : sdict string
  }.

  (** optim.py:327-342, OptimizationFunction.__init__; [args] is None or a
      list of problem variable names. *)
  Definition mk_optfun (s : shape) (f : fn) (args : option (list string)) : optfun :=
    match args with
    | None => OptFun f (f_sig f) s []
    | Some a => OptFun f a s (dmake String.eqb (combine (f_sig f) a))
    end.

  (** [(variables[arg] for arg in self.args)] in optim.py:345, 385, 413, 421. *)
  Definition get_args (o : optfun) (vars : sdict (arr T)) : res (list (arr T)) :=
    mapM (dlookup String.eqb vars) (o_args o).

  (** optim.py:344-346, OptimizationFunction.__call__ *)
  Definition o_call (o : optfun) (vars : sdict (arr T)) : res (arr T) :=
    let* a := get_args o vars in f_call (o_fun o) a.

  (** [renamed.get(k, k)] *)
  Definition ren1 (r : sdict string) (k : string) : string :=
    match dget String.eqb r k with Some k' => k' | None => k end.

  (** optim.py:348-361, _rename_key and rename, for string keys ... *)
  Definition rename_s {V} (o : optfun) (d : sdict V) : sdict V :=
    match o_renamed o with
    | [] => d
    | r => dmake String.eqb (map (fun kv => (ren1 r (fst kv), snd kv)) d)
    end.
  (** ... and for tuple keys. *)
  Definition rename_t {V} (o : optfun) (d : list (tkey * V)) : list (tkey * V) :=
    match o_renamed o with
    | [] => d
    | r => dmake tkey_eqb (map (fun kv => (map (ren1 r) (fst kv), snd kv)) d)
    end.

  (** optim.py:363-374, rename_kwargs (KeyError is swallowed). *)
  Definition rename_kwargs {V} (o : optfun) (kwargs : sdict V) : sdict V :=
    fold_left (fun d fk =>
      match dget String.eqb kwargs (snd fk) with
      | Some v => dset String.eqb d (fst fk) v
      | None => d
      end) (o_renamed o) kwargs.

  (** optim.py:376-386 *)
  Definition o_hess_nnz (o : optfun) (vs : sdict shape) : res nat :=
    f_hess_nnz (o_fun o) (rename_kwargs o vs) (o_shape o).
  Definition o_hess_ind (o : optfun) (vs : sdict shape) :=
    let* d := f_hess_ind (o_fun o) (rename_kwargs o vs) (o_shape o) in
    Ok (rename_t o d).
  Definition o_hess_val (o : optfun) (vars : sdict (arr T)) :=
    let* a := get_args o vars in
    let* d := f_hess_val (o_fun o) a in Ok (rename_t o d).

  (** optim.py:404-414, Constraint *)
  Definition o_jac_nnz (o : optfun) (vs : sdict shape) : res nat :=
    f_jac_nnz (o_fun o) (rename_kwargs o vs) (o_shape o).
  Definition o_jac_ind (o : optfun) (vs : sdict shape) :=
    let* d := f_jac_ind (o_fun o) (rename_kwargs o vs) (o_shape o) in
    Ok (rename_t o d).
  Definition o_jac_val (o : optfun) (vars : sdict (arr T)) :=
    let* a := get_args o vars in
    let* d := f_jac_val (o_fun o) a in Ok (rename_t o d).

  (** optim.py:420-422, Objective.grad *)
  Definition o_grad (o : optfun) (vars : sdict (arr T)) :=
    let* a := get_args o vars in
    let* d := f_grad (o_fun o) a in Ok (rename_s o d).

  (** optim.py:14-34, class Problem.  [p_extra] holds the constants that the
      subclasses' [variables] methods put in front of the inherited ones
      (col.py:53-55, oem.py:57-60, jme.py:31-34); it is empty for
      optim.Problem itself.  [p_constraints] pairs the Component and
      OptimizationFunction halves of a Constraint (optim.py:396-402). *)
  Record problem := Problem {
    p_decision : sdict comp;
    p_remapped : sdict spec;
    p_objectives : list optfun;
    p_constraints : list (comp * optfun);
    p_ndec : Z;
    p_ncons : Z;
    p_extra : sdict (arr T)
  }.

  (** optim.py:17-34 *)
  Definition new_problem : problem := Problem [] [] [] [] 0%Z 0%Z [].

  (** A builder call: the object after the call and the exception raised, if
      any.  An exception does not undo the statements executed before it. *)
  Definition outcome : Type := problem * option exn.
  Definition done (o : outcome) : res problem :=
    match snd o with None => Ok (fst o) | Some e => Err e end.

  (** optim.py:36-49, add_decision.  The TypeError for a non-string name is
      excluded by typing; an integer shape n is passed as [n]. *)
  Definition add_decision_st (p : problem) (name : string) (s : shape) : outcome :=
    if dmem String.eqb (p_decision p) name then (p, Some ValueError)
    else if dmem String.eqb (p_remapped p) name then (p, Some ValueError)
    else
      let dec := Comp s (p_ndec p) in
      (Problem (dset String.eqb (p_decision p) name dec) (p_remapped p)
         (p_objectives p) (p_constraints p) (p_ndec p + csize dec)%Z (p_ncons p)
         (p_extra p), None).

  (** optim.py:51-55, add_objective *)
  Definition add_objective_st (p : problem) (f : fn) (s : shape)
      (args : option (list string)) : outcome :=
    (Problem (p_decision p) (p_remapped p)
       (p_objectives p ++ [mk_optfun s f args]) (p_constraints p)
       (p_ndec p) (p_ncons p) (p_extra p), None).

  (** optim.py:57-65, add_dependent_variable *)
  Definition add_dependent_st (p : problem) (name : string) (sp : spec) : outcome :=
    if dmem String.eqb (p_decision p) name then (p, Some ValueError)
    else if dmem String.eqb (p_remapped p) name then (p, Some ValueError)
    else (Problem (p_decision p) (dset String.eqb (p_remapped p) name sp)
            (p_objectives p) (p_constraints p) (p_ndec p) (p_ncons p) (p_extra p), None).

  (** optim.py:67-73, add_constraint *)
  Definition add_constraint_st (p : problem) (f : fn) (s : shape)
      (args : option (list string)) : outcome :=
    let c := Comp s (p_ncons p) in
    (Problem (p_decision p) (p_remapped p) (p_objectives p)
       (p_constraints p ++ [(c, mk_optfun s f args)])
       (p_ndec p) (p_ncons p + csize c)%Z (p_extra p), None).

  (** The same calls as seen by a caller that does not catch exceptions. *)
  Definition add_decision p name s : res problem := done (add_decision_st p name s).
  Definition add_objective p f s args : res problem := done (add_objective_st p f s args).
  Definition add_dependent p name sp : res problem := done (add_dependent_st p name sp).
  Definition add_constraint p f s args : res problem := done (add_constraint_st p f s args).

  (** All variable specifications, decision first
      ([itertools.chain] in optim.py:79 and 84). *)
  Definition all_specs (p : problem) : sdict spec :=
    map (fun kc => (fst kc, dec_spec (snd kc))) (p_decision p) ++ p_remapped p.

  (** optim.py:75-80, variables, and its overrides (see [p_extra]). *)
  Definition variables (p : problem) (dvec : list T) : res (sdict (arr T)) :=
    let* _ := passert (Z.of_nat (length dvec) =? p_ndec p)%Z in
    let* items := mapM (fun kv => let* a := s_unpack (snd kv) dvec in Ok (fst kv, a))
                       (all_specs p) in
    Ok (dmerge String.eqb (p_extra p) (dmake String.eqb items)).

  (** optim.py:82-85, variable_shapes *)
  Definition variable_shapes (p : problem) : sdict shape :=
    dmake String.eqb (map (fun kv => (fst kv, s_shape (snd kv))) (all_specs p)).

  (** optim.py:87-91, variable_spec.  Specification objects are truthy. *)
  Definition variable_spec (p : problem) (name : string) : res spec :=
    match dget String.eqb (p_decision p) name with
    | Some c => Ok (dec_spec c)
    | None => match dget String.eqb (p_remapped p) name with
              | Some s => Ok s
              | None => Err ValueError
              end
    end.

  (** optim.py:93-101, unpack_constraints.  Empty names are skipped. *)
  Definition unpack_constraints (p : problem) (cvec : list T) : res (sdict (arr T)) :=
    let* _ := passert (p_ncons p <=? Z.of_nat (length cvec))%Z in
    foldM (fun ret co =>
      let name := f_name (o_fun (snd co)) in
      if String.eqb name EmptyString then Ok ret
      else let* a := c_unpack (fst co) cvec in Ok (dset String.eqb ret name a))
      [] (p_constraints p).

  (** optim.py:107-115, the double loop of _sparse_fun_val.  The
      preallocated buffer is filled from the left, so its written prefix is
      the accumulator; [offset] is the accumulator's length. *)
  Definition sparse_fun_val (p : problem) (dvec : list T) (nnz : nat)
      (val_funs : list (sdict (arr T) -> res (list (tkey * arr T)))) : res (list T) :=
    let* vars := variables p dvec in
    let* val := foldM (fun acc vf =>
      let* d := vf vars in
      foldM (fun acc kv =>
        let* _ := passert (length acc + length (adat (snd kv)) <=? nnz)%nat in
        Ok (acc ++ adat (snd kv))) acc d) [] val_funs in
    let* _ := passert (length val =? nnz)%nat in
    Ok val.

  (** optim.py:118-124, obj *)
  Definition obj (p : problem) (dvec : list T) : res T :=
    let* vars := variables p dvec in
    foldM (fun acc o => let* v := o_call o vars in Ok (acc + lsum (adat v)))
      0 (p_objectives p).

  (** optim.py:126-136, obj_grad.  [np.zeros(ndec)] raises for negative ndec,
      but [variables] has already failed then. *)
  Definition obj_grad (p : problem) (dvec : list T) : res (list T) :=
    let* vars := variables p dvec in
    foldM (fun grad o =>
      let* d := o_grad o vars in
      foldM (fun grad kv =>
        let* sp := variable_spec p (fst kv) in
        s_add_to sp grad (snd kv)) grad d)
      (repeat 0 (Z.to_nat (p_ndec p))) (p_objectives p).

  (** [sum(f(c) for c in l)] *)
  Definition sum_nnz {A} (f : A -> res nat) (l : list A) : res nat :=
    foldM (fun acc a => let* n := f a in Ok (acc + n)%nat) 0%nat l.

  (** [loc_ind[k].ravel()] *)
  Definition row (ind : list (list Z)) (k : nat) : res (list Z) :=
    match nth_error ind k with Some r => Ok r | None => Err IndexError end.

  (** [ind[k, s] = v] where the slice [s] has [n] elements. *)
  Definition put_row (n : nat) (v : list Z) : res (list Z) :=
    if (length v =? n)%nat then Ok v
    else match v with [x] => Ok (repeat x n) | _ => Err ValueError end.

  (** optim.py:138-141 *)
  Definition obj_hess_nnz (p : problem) : res nat :=
    sum_nnz (fun o => o_hess_nnz o (variable_shapes p)) (p_objectives p).

  (** optim.py:143-161, obj_hess_ind; the two rows are accumulated. *)
  Definition obj_hess_ind (p : problem) : res (list Z * list Z) :=
    let* nnz := obj_hess_nnz p in
    let* ind := foldM (fun acc o =>
      let* d := o_hess_ind o (variable_shapes p) in
      foldM (fun '(r0, r1) kv =>
        match fst kv with
        | [v0; v1] =>
            let* var0 := variable_spec p v0 in
            let* var1 := variable_spec p v1 in
            let* l0 := row (snd kv) 0 in
            let* _ := passert (length r0 + length l0 <=? nnz)%nat in
            let* c0 := s_convert var0 l0 in
            let* c0 := put_row (length l0) c0 in
            let* l1 := row (snd kv) 1 in
            let* c1 := s_convert var1 l1 in
            let* c1 := put_row (length l0) c1 in
            Ok (r0 ++ c0, r1 ++ c1)
        | _ => Err ValueError
        end) acc d) ([], []) (p_objectives p) in
    let* _ := passert (length (fst ind) =? nnz)%nat in
    Ok ind.

  (** optim.py:163-166 *)
  Definition obj_hess_val (p : problem) (dvec : list T) : res (list T) :=
    let* nnz := obj_hess_nnz p in
    sparse_fun_val p dvec nnz (map o_hess_val (p_objectives p)).

  (** optim.py:168-173, constr *)
  Definition constr (p : problem) (dvec : list T) : res (list T) :=
    let cvec := repeat 0 (Z.to_nat (p_ncons p)) in
    let* vars := variables p dvec in
    foldM (fun cvec co =>
      let* v := o_call (snd co) vars in c_pack_into (fst co) cvec v)
      cvec (p_constraints p).

  (** optim.py:175-178 *)
  Definition constr_jac_nnz (p : problem) : res nat :=
    sum_nnz (fun co => o_jac_nnz (snd co) (variable_shapes p)) (p_constraints p).

  (** optim.py:180-197, constr_jac_ind: row 0 decision, row 1 constraint. *)
  Definition constr_jac_ind (p : problem) : res (list Z * list Z) :=
    let* nnz := constr_jac_nnz p in
    let* ind := foldM (fun acc co =>
      let* d := o_jac_ind (snd co) (variable_shapes p) in
      foldM (fun '(r0, r1) kv =>
        match fst kv with
        | [v] =>
            let* var := variable_spec p v in
            let* l0 := row (snd kv) 0 in
            let* _ := passert (length r0 + length l0 <=? nnz)%nat in
            let* c0 := s_convert var l0 in
            let* c0 := put_row (length l0) c0 in
            let* l1 := row (snd kv) 1 in
            let* c1 := c_convert (fst co) l1 in
            let* c1 := put_row (length l0) c1 in
            Ok (r0 ++ c0, r1 ++ c1)
        | _ => Err ValueError
        end) acc d) ([], []) (p_constraints p) in
    let* _ := passert (length (fst ind) =? nnz)%nat in
    Ok ind.

  (** optim.py:199-202 *)
  Definition constr_jac_val (p : problem) (dvec : list T) : res (list T) :=
    let* nnz := constr_jac_nnz p in
    sparse_fun_val p dvec nnz (map (fun co => o_jac_val (snd co)) (p_constraints p)).

  (** optim.py:204-207 *)
  Definition constr_hess_nnz (p : problem) : res nat :=
    sum_nnz (fun co => o_hess_nnz (snd co) (variable_shapes p)) (p_constraints p).

  (** optim.py:209-228, constr_hess_ind: two decision rows, one constraint row. *)
  Definition constr_hess_ind (p : problem) : res (list Z * list Z * list Z) :=
    let* nnz := constr_hess_nnz p in
    let* ind := foldM (fun acc co =>
      let* d := o_hess_ind (snd co) (variable_shapes p) in
      foldM (fun '(r0, r1, r2) kv =>
        match fst kv with
        | [v0; v1] =>
            let* var0 := variable_spec p v0 in
            let* var1 := variable_spec p v1 in
            let* l0 := row (snd kv) 0 in
            let* _ := passert (length r0 + length l0 <=? nnz)%nat in
            let* c0 := s_convert var0 l0 in
            let* c0 := put_row (length l0) c0 in
            let* l1 := row (snd kv) 1 in
            let* c1 := s_convert var1 l1 in
            let* c1 := put_row (length l0) c1 in
            let* l2 := row (snd kv) 2 in
            let* c2 := c_convert (fst co) l2 in
            let* c2 := put_row (length l0) c2 in
            Ok (r0 ++ c0, r1 ++ c1, r2 ++ c2)
        | _ => Err ValueError
        end) acc d) ([], [], []) (p_constraints p) in
    let* _ := passert (length (fst (fst ind)) =? nnz)%nat in
    Ok ind.

  (** optim.py:230-233 *)
  Definition constr_hess_val (p : problem) (dvec : list T) : res (list T) :=
    let* nnz := constr_hess_nnz p in
    sparse_fun_val p dvec nnz (map (fun co => o_hess_val (snd co)) (p_constraints p)).

  (** optim.py:235-237 *)
  Definition lag_hess_nnz (p : problem) : res nat :=
    let* a := obj_hess_nnz p in
    let* b := constr_hess_nnz p in Ok (a + b)%nat.

  (** optim.py:239-246.  The two slice assignments fill the whole array; the
      sizes agree because both index functions end with [assert offset == nnz]. *)
  Definition lag_hess_ind (p : problem) : res (list Z * list Z) :=
    let* _ := lag_hess_nnz p in
    let* a := obj_hess_ind p in
    let* b := constr_hess_ind p in
    Ok (fst a ++ fst (fst b), snd a ++ snd (fst b)).

  (** optim.py:248-257 *)
  Definition lag_hess_val (p : problem) (dvec : list T) (obj_mult : T)
      (constr_mult : list T) : res (list T) :=
    let* _ := passert (Z.of_nat (length constr_mult) =? p_ncons p)%Z in
    let* _ := lag_hess_nnz p in
    let* ci := constr_hess_ind p in
    let* ov := obj_hess_val p dvec in
    let* cv := constr_hess_val p dvec in
    let* m := mapM (pyindex constr_mult) (snd ci) in
    Ok (map (fun v => v * obj_mult) ov
        ++ map (fun vm => fst vm * snd vm) (combine cv m)).

  (** optim.py:265, the Jacobian index callback handed to Ipopt:
      [constr_jac_ind[[1,0]]]. *)
  Definition ipopt_jac_ind (p : problem) : res (list Z * list Z) :=
    let* ind := constr_jac_ind p in Ok (snd ind, fst ind).
  (** optim.py:266 *)
  Definition ipopt_hess_ind (p : problem) : res (list Z * list Z) := lag_hess_ind p.
  (** optim.py:262-272, what [ez.Problem] receives. *)
  Record ipopt_args := IpoptArgs {
    ip_f : list T -> res T;
    ip_g : list T -> res (list T);
    ip_grad : list T -> res (list T);
    ip_jac_ind : res (list Z * list Z);
    ip_jac_val : list T -> res (list T);
    ip_nele_jac : nat;
    ip_hess_ind : res (list Z * list Z);
    ip_hess_val : list T -> T -> list T -> res (list T);
    ip_nele_hess : nat
  }.
  Definition ipopt (p : problem) : res ipopt_args :=
    let* nj := constr_jac_nnz p in
    let* nh := lag_hess_nnz p in
    Ok (IpoptArgs (obj p) (constr p) (obj_grad p) (ipopt_jac_ind p) (constr_jac_val p) nj
          (ipopt_hess_ind p) (lag_hess_val p) nh).
End Optim.
Arguments spec T : clear implicits.
Arguments fn T : clear implicits.
Arguments optfun T : clear implicits.
Arguments problem T : clear implicits.
