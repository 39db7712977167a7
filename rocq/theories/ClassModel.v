(** The class that code generation makes of a symbolic model: the attributes
    assigned by [generate_assignments] (symoptim.py, symcol.py, symoc.py,
    symoem.py, symjme.py), and how genoptim.py and the problem classes read
    them.  sym2num prints the assignments and the functions as a class; the
    model of the result is the dictionary of assignments. *)
From Coq Require Import String List ZArith Bool Arith.
From Verif Require Import Py NdArray OptimModel GenModel SymModel.
Import ListNotations.
Local Open Scope string_scope.
Local Open Scope list_scope.

(** Values assigned to class attributes. *)
Inductive cval :=
| CNat (n : nat) | CBool (b : bool) | CInd (i : list (list Z))
| CDesc (d : sdict sdesc) | CShapes (s : sdict shape).
Definition namespace := sdict cval.

Section Class.
  Context {T : Type} {NT : Num T}.

  (** symoptim.py:44-56 *)
  Definition base_assignments (m : smodel T) : res namespace :=
    let* shapes := mapM (fun d => let* s := dlookup String.eqb (m_vars m) d in Ok (d, s)) (m_dec m) in
    let a := [("constraints", CDesc (m_cons m)); ("objectives", CDesc (m_objs m)); ("base_shapes", CShapes shapes)] in
    let a := fold_left (fun a kv => dset String.eqb a (fst kv ++ "_ind")%string (CInd (snd kv))) (m_nzind m) a in
    Ok (fold_left (fun a kv => dset String.eqb a (fst kv ++ "_nnz")%string (CNat (snd kv))) (m_nnz m) a).

  (** [{**own, **sup}] *)
  Definition extend (own sup : namespace) : namespace :=
    fold_left (fun a kv => dset String.eqb a (fst kv) (snd kv)) sup own.

  (** [len] of an array *)
  Definition alen (s : shape) : res nat := match s with [] => Err TypeError | n :: _ => Ok n end.
  Definition vlen (m : smodel T) (v : string) : res nat :=
    let* s := dlookup String.eqb (m_vars m) v in alen s.

  (** symcol.py:54-56: 2, unless a subclass overrides the attribute. *)
  Definition collocation_order (override : option nat) : nat :=
    match override with Some n => n | None => 2 end.

  (** symcol.py:63-72 *)
  Definition symcol_assignments (m : smodel T) (order : option nat) : res namespace :=
    let* nx := vlen m "x" in
    let* nu := vlen m "u" in
    let* np := vlen m "p" in
    let* sup := base_assignments m in
    Ok (extend [("nx", CNat nx); ("nu", CNat nu); ("np", CNat np); ("collocation_order", CNat (collocation_order order))] sup).

  (** symoc.py:64-69 *)
  Definition symoc_assignments (m : smodel T) (order : option nat) : res namespace :=
    let* g := dlookup String.eqb (m_fun m) "g" in
    let* ng := alen (sf_out g) in
    let* h := dlookup String.eqb (m_fun m) "h" in
    let* nh := alen (sf_out h) in
    let* sup := symcol_assignments m order in
    Ok (extend [("ng", CNat ng); ("nh", CNat nh)] sup).

  (** symoem.py:23-27 *)
  Definition symoem_assignments (m : smodel T) (order : option nat) : res namespace :=
    let* ny := vlen m "y" in
    let* sup := symcol_assignments m order in
    Ok (extend [("ny", CNat ny)] sup).

  (** symjme.py:39-45; [variables['G'].shape[1]] *)
  Definition symjme_assignments (m : smodel T) (order : option nat) (use_penalty use_om : bool) : res namespace :=
    let* G := dlookup String.eqb (m_vars m) "G" in
    let* nw := match nth_error G 1 with Some n => Ok n | None => Err IndexError end in
    let* sup := symoem_assignments m order in
    Ok (extend [("nw", CNat nw); ("use_penalty", CBool use_penalty); ("use_om", CBool use_om)] sup).

  (** * Reading the class *)

  (** [getattr(cls, name)] *)
  Definition attr (c : namespace) (name : string) : res cval :=
    match dget String.eqb c name with Some v => Ok v | None => Err AttributeError end.
  Definition attr_nat c name : res nat := let* v := attr c name in match v with CNat n => Ok n | _ => Err TypeError end.
  Definition attr_ind c name : res (list (list Z)) := let* v := attr c name in match v with CInd i => Ok i | _ => Err TypeError end.
  Definition attr_desc c name : res (sdict sdesc) := let* v := attr c name in match v with CDesc d => Ok d | _ => Err TypeError end.
  Definition attr_shapes c name : res (sdict shape) := let* v := attr c name in match v with CShapes s => Ok s | _ => Err TypeError end.

  (** genoptim.py:79-82, 86-88 and 108-112: a sparse derivative as its readers
      find it.  [fs] are the generated functions. *)
  Definition class_deriv (c : namespace) (fs : sdict (list (sexpr T))) (wd : tkey * string) : res (gderiv T) :=
    let* nnz := attr_nat c (snd wd ++ "_nnz")%string in
    let* ind := attr_ind c (snd wd ++ "_ind")%string in
    let* val := dlookup String.eqb fs (snd wd ++ "_val")%string in
    Ok (GD (fst wd) nnz ind (evals val)).

  (** genoptim.py:12-30 and 125-160: a registered function, from the
      description found under [constraints] or [objectives]; the code of the
      function [f] and of the functions [fs] is as in SymModel. *)
  Definition class_function (m : smodel T) (c : namespace) (kind fname : string) : res (gfun T) :=
    let* descs := attr_desc c kind in
    let* d := dlookup String.eqb descs fname in
    let* f := dlookup String.eqb (m_fun m) fname in
    let* bases := mapM (dlookup String.eqb (m_vars m)) (sf_args f) in
    let* base_shapes := attr_shapes c "base_shapes" in
    let* grad := mapM (fun wd => let* e := dlookup String.eqb (m_attr m) (snd wd) in Ok (fst wd, evals e)) (sd_grad d) in
    let* jac := mapM (class_deriv c (m_attr m)) (sd_jac d) in
    let* hess := mapM (class_deriv c (m_attr m)) (sd_hess d) in
    Ok (GF fname (sf_args f) bases (sd_shape d) (evals (sf_expr f)) grad jac hess base_shapes).
End Class.
