(** Model of the calls and signatures of ceacoest/modelling/genoptim.py
    (lines 33-57, 117-170, 173-188, 201-240) and of how
    ceacoest/optim.py:326-346 and ceacoest/utils.py:146-149 read them.  Python
    values are an arbitrary type; parameters have no defaults, as in generated
    code. *)
From Coq Require Import String List Bool Arith.
From Verif Require Import Py GenModel.
Import ListNotations.
Open Scope string_scope.
Open Scope list_scope.

Section Sig.
  Context {V : Type}.

  (** ** Python functions *)

  (** The parameters of a function: names, and whether [*args, **kwargs] follow. *)
  Record psig := PSig { ps_names : list string; ps_var : bool }.

  (** A call with positional and keyword arguments of a function with the given names: every
      parameter takes the next positional argument, or else the keyword argument of
      its name.  Too many or too few arguments, an unknown keyword or a
      parameter given twice raise TypeError. *)
  Fixpoint pybind (names : list string) (args : list V) (kw : sdict V) : res (list V) :=
    match names with
    | [] => match args, kw with [], [] => Ok [] | _, _ => Err TypeError end
    | n :: names' =>
        match args with
        | a :: args' =>
            if dmem String.eqb kw n then Err TypeError
            else let* r := pybind names' args' kw in Ok (a :: r)
        | [] =>
            match dget String.eqb kw n with
            | None => Err TypeError
            | Some v => let* r := pybind names' [] (filter (fun p => negb (String.eqb n (fst p))) kw) in Ok (v :: r)
            end
        end
    end.

  (** A function: its own parameters, its [__signature__] if it was assigned,
      and what a call does. *)
  Record func (R : Type) := Func { fu_own : psig; fu_sig : option psig; fu_run : list V -> sdict V -> res R }.
  (** A function, or a function bound to an object. *)
  Inductive callable (R : Type) := CFun (f : func R) | CBound (o : V) (f : func R).

  Definition pycall {R} (c : callable R) (args : list V) (kw : sdict V) : res R :=
    match c with CFun _ f => fu_run _ f args kw | CBound _ o f => fu_run _ f (o :: args) kw end.

  (** [inspect.signature]; a bound function has lost its first parameter. *)
  Definition signature {R} (c : callable R) : res psig :=
    let own f := match fu_sig R f with Some s => s | None => fu_own R f end in
    match c with
    | CFun _ f => Ok (own f)
    | CBound _ _ f =>
        match own f with
        | PSig (_ :: ns) v => Ok (PSig ns v)
        | PSig [] true => Ok (PSig [] true)
        | PSig [] false => Err ValueError
        end
    end.

  (** utils.py:146-149 *)
  Definition sig_arg_names {R} (c : callable R) : res (list string) :=
    let* s := signature c in
    Ok (ps_names s ++ (if ps_var s then ["args"; "kwargs"] else [])).

  (** [def f(n1, ..., nk): body] *)
  Definition deff {R} (names : list string) (body : list V -> res R) : func R :=
    Func R (PSig names false) None (fun a k => let* vs := pybind names a k in body vs).

  (** [def f(self, *args, **kwargs): body], for a call with [self] positional. *)
  Definition defm {R} (body : V -> list V -> sdict V -> res R) : func R :=
    Func R (PSig ["self"] true) None (fun a k => match a with s :: a' => body s a' k | [] => Err TypeError end).

  (** genoptim.py:228-232.  [list(...)[1:]] of no parameters is empty. *)
  Definition bound_signature {R} (c : callable R) : res psig :=
    let* s := signature c in
    match s with
    | PSig (_ :: ns) v => Ok (PSig ns v)
    | PSig [] true => Ok (PSig [] true)
    | PSig [] false => Ok (PSig [] false)
    end.

  (** genoptim.py:235-240 *)
  Definition with_signature {R} (c : callable R) (s : psig) : func R :=
    Func R (PSig [] true) (Some s) (fun a k => pycall c a k).

  (** ** The generated classes *)

  (** [A] is what the method returns, [D] a dictionary of derivatives. *)
  Context {A D : Type}.

  (** A class made by ObjectiveFunctionMeta (genoptim.py:173-188) or
      ConstraintFunctionMeta (201-225): the static method, [grad] or
      [jac_val], and [hess_val]. *)
  Record fcls := FCls { k_method : func A; k_first : func D; k_hess_val : func D }.

  Definition objective_meta (method : func A) (grad hess_val : V -> list V -> sdict V -> res D) : res fcls :=
    let* method_sig := signature (CFun _ method) in
    Ok (FCls method (with_signature (CFun _ (defm grad)) method_sig) (defm hess_val)).
  Definition constraint_meta (method : func A) (jac_val hess_val : V -> list V -> sdict V -> res D) : res fcls :=
    let* method_sig := signature (CFun _ method) in
    Ok (FCls method (with_signature (CFun _ (defm jac_val)) method_sig) (with_signature (CFun _ (defm hess_val)) method_sig)).

  (** An instance: genoptim.py:41-50.  [o] is the object itself. *)
  Record fobj := FObj { fo_model : V; fo_sig : psig; fo_cls : fcls; fo_hess_val : func D }.
  Definition fobj_init (c : fcls) (o model : V) : res fobj :=
    let* s := bound_signature (CFun _ (k_method c)) in
    let* method_sig := signature (CFun _ (k_method c)) in
    Ok (FObj model s c (with_signature (CBound _ o (k_hess_val c)) method_sig)).

  (** genoptim.py:56-57 [__call__]; an instance as a callable with the
      signature it was given. *)
  Definition fobj_call (x : fobj) : callable A :=
    CFun _ (Func A (PSig [] true) (Some (fo_sig x)) (fun a k => pycall (CFun _ (k_method (fo_cls x))) (fo_model x :: a) k)).
  (** The attributes [grad] or [jac_val], and [hess_val], of the instance: the
      former is found in the class and bound, the latter in the instance. *)
  Definition fobj_first (o : V) (x : fobj) : callable D := CBound _ o (k_first (fo_cls x)).
  Definition fobj_hess_val (x : fobj) : callable D := CFun _ (fo_hess_val x).

  (** genoptim.py:150-168: the argument [wrt] of a call of [grad]. *)
  Definition wrt_arg (x : fobj) (args : list V) (kw : sdict V) (wrt : string) : res V :=
    let names := ps_names (fo_sig x) in
    match dlookup String.eqb kw wrt with
    | Ok v => Ok v
    | Err _ =>
        match index_of names wrt with
        | None => Err KeyError
        | Some i => match nth_error args i with Some v => Ok v | None => Err IndexError end
        end
    end.

  (** ** optim.py:326-346 *)

  (** [OptimizationFunction.__init__] with the object [x], and [__call__]. *)
  Record ofun := OFun { of_args : list string; of_renamed : sdict string }.
  Definition ofun_init (x : fobj) (args : option (list string)) : res ofun :=
    let* names := sig_arg_names (fobj_call x) in
    match args with
    | None => Ok (OFun names [])
    | Some a => Ok (OFun a (dmake String.eqb (combine names a)))
    end.
  Definition ofun_call (x : fobj) (f : ofun) (variables : sdict V) : res A :=
    let* a := mapM (dlookup String.eqb variables) (of_args f) in
    pycall (fobj_call x) a [].
End Sig.
