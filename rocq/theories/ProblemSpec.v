(** Specification vocabulary for whole problems: what it means for a
    registered function to be well behaved, and for a problem to be fit for
    use.  Nothing here is code of the repository. *)
From Coq Require Import String List ZArith Bool Arith Lia.
From Verif Require Import Py NdArray OptimModel ColModel Builder OptimSpec.
Import ListNotations.

Section ProblemSpec.
  Context {T : Type} {NT : Num T}.
  Open Scope num_scope.

  (** A problem that some sequence of builder calls produces, with any
      constants supplied by a subclass. *)
  Definition reachable (p : problem T) : Prop :=
    exists ops extra, Forall op_small ops /\ p = with_extra (history ops) extra.

  (** Names of the decision and dependent variables. *)
  Definition var_names (p : problem T) : list string :=
    map fst (p_decision p) ++ map fst (p_remapped p).

  (** Number of decisions, number of constraints. *)
  Definition ndec (p : problem T) : nat := Z.to_nat (p_ndec p).
  Definition ncons (p : problem T) : nat := Z.to_nat (p_ncons p).

  (** [sel name i] is the decision entry that element [i] of variable [name] is. *)
  Definition selects (p : problem T) (sel : string -> nat -> nat) : Prop :=
    forall name sp, In (name, sp) (all_specs p) -> lawful (ndec p) sp (sel name).

  (** The problem variable passed for parameter [w] of a registered function. *)
  Definition param (o : optfun T) (w : string) : string :=
    match dget String.eqb (combine (f_sig (o_fun o)) (o_args o)) w with
    | Some v => v | None => w end.

  (** Parameters that receive a decision or dependent variable. *)
  Definition active (p : problem T) (o : optfun T) : list string :=
    filter (fun w => existsb (String.eqb (param o w)) (var_names p)) (f_sig (o_fun o)).

  (** Shape of the variable passed for parameter [w]. *)
  Definition param_shape (p : problem T) (o : optfun T) (w : string) : shape :=
    match variable_spec p (param o w) with Ok sp => s_shape sp | Err _ => [] end.

  (** The arguments are distinct, one per parameter, and each is a variable
      or a constant of the problem. *)
  Definition fits (p : problem T) (o : optfun T) : Prop :=
    NoDup (f_sig (o_fun o)) /\ NoDup (o_args o) /\
    length (o_args o) = length (f_sig (o_fun o)) /\
    forall v, In v (o_args o) -> In v (var_names p) \/ exists a, dget String.eqb (p_extra p) v = Some a.

  (** The argument values the function receives at decision vector [dvec]. *)
  Definition fun_args (p : problem T) (dvec : list T) (o : optfun T) : res (list (arr T)) :=
    let* vars := variables p dvec in get_args o vars.

  (** One block of a sparse Jacobian: derivatives of output [jb_o] with
      respect to element [jb_i] of parameter [jb_w]. *)
  Record jblock := JB { jb_w : string; jb_i : list Z; jb_o : list Z }.
  (** One block of a sparse Hessian: second derivatives of output [hb_o] with
      respect to element [hb_i] of [hb_a] and element [hb_j] of [hb_b]. *)
  Record hblock := HB { hb_a : string; hb_b : string; hb_i : list Z; hb_j : list Z; hb_o : list Z }.

  Definition in_range (n : nat) (l : list Z) : Prop := Forall (fun i => (0 <= i < Z.of_nat n)%Z) l.

  Definition sum_len {A} (len : A -> nat) (l : list A) : nat := fold_right Nat.add O (map len l).

  (** The Jacobian index callbacks of [f] list the blocks [jb], given the
      shapes of the parameters in [W] and the output shape. *)
  Record jac_struct (f : fn T) (W : list string) (SH : string -> shape) (out : shape)
      (jb : list jblock) : Prop := {
    js_ind : forall vs, (forall w, In w W -> dget String.eqb vs w = Some (SH w)) ->
      f_jac_nnz f vs out = Ok (sum_len (fun b => length (jb_i b)) jb) /\
      f_jac_ind f vs out = Ok (map (fun b => ([jb_w b], [jb_i b; jb_o b])) jb);
    js_nodup : NoDup (map jb_w jb);
    js_ok : Forall (fun b => In (jb_w b) W /\ length (jb_o b) = length (jb_i b) /\
                             in_range (prodn (SH (jb_w b))) (jb_i b) /\ in_range (prodn out) (jb_o b)) jb
  }.

  Record hess_struct (f : fn T) (W : list string) (SH : string -> shape) (out : shape)
      (hb : list hblock) : Prop := {
    hs_ind : forall vs, (forall w, In w W -> dget String.eqb vs w = Some (SH w)) ->
      f_hess_nnz f vs out = Ok (sum_len (fun b => length (hb_i b)) hb) /\
      f_hess_ind f vs out = Ok (map (fun b => ([hb_a b; hb_b b], [hb_i b; hb_j b; hb_o b])) hb);
    hs_nodup : NoDup (map (fun b => (hb_a b, hb_b b)) hb);
    hs_ok : Forall (fun b => In (hb_a b) W /\ In (hb_b b) W /\
                             length (hb_j b) = length (hb_i b) /\ length (hb_o b) = length (hb_i b) /\
                             in_range (prodn (SH (hb_a b))) (hb_i b) /\
                             in_range (prodn (SH (hb_b b))) (hb_j b) /\
                             in_range (prodn out) (hb_o b)) hb
  }.

  (** At arguments [A] the value callbacks return one value per listed index. *)
  Definition jac_vals (f : fn T) (A : list (arr T)) (jb : list jblock) (vals : list (arr T)) : Prop :=
    f_jac_val f A = Ok (combine (map (fun b => [jb_w b]) jb) vals) /\
    Forall2 (fun b v => length (adat v) = length (jb_i b)) jb vals.
  Definition hess_vals (f : fn T) (A : list (arr T)) (hb : list hblock) (vals : list (arr T)) : Prop :=
    f_hess_val f A = Ok (combine (map (fun b => [hb_a b; hb_b b]) hb) vals) /\
    Forall2 (fun b v => length (adat v) = length (hb_i b)) hb vals.

  (** At arguments [A] the function returns a value of the registered shape. *)
  Definition call_ok (f : fn T) (A : list (arr T)) (out : shape) (v : arr T) : Prop :=
    f_call f A = Ok v /\ ash v = out /\ awf v.
End ProblemSpec.

Section GradSpec.
  Context {T : Type} {NT : Num T}.
  (** At arguments [A] the gradient callback returns [gs]: one array per
      listed parameter, of that parameter's shape. *)
  Definition grad_vals (f : fn T) (W : list string) (SH : string -> shape) (A : list (arr T))
      (gs : sdict (arr T)) : Prop :=
    f_grad f A = Ok gs /\ NoDup (map fst gs) /\
    Forall (fun g => In (fst g) W /\ ash (snd g) = SH (fst g) /\ awf (snd g)) gs.
End GradSpec.

(** A registered function is well behaved at a decision vector. *)
Section Registered.
  Context {T : Type} {NT : Num T}.
  Variable p : problem T.
  (** Constraint [co] lists the Jacobian blocks [jb]. *)
  Definition jac_ok (co : comp * optfun T) (jb : list jblock) : Prop :=
    fits p (snd co) /\
    jac_struct (o_fun (snd co)) (active p (snd co)) (param_shape p (snd co)) (c_shape (fst co)) jb.
  (** ... and returns the values [snd jd] at [dvec]. *)
  Definition jac_at_ok (dvec : list T) (co : comp * optfun T) (jd : list jblock * list (arr T)) : Prop :=
    jac_ok co (fst jd) /\
    exists A, fun_args p dvec (snd co) = Ok A /\ jac_vals (o_fun (snd co)) A (fst jd) (snd jd).
  (** Function [o] of output shape [s] lists the Hessian blocks [hb]. *)
  Definition hess_ok (s : shape) (o : optfun T) (hb : list hblock) : Prop :=
    fits p o /\ hess_struct (o_fun o) (active p o) (param_shape p o) s hb.
  Definition chess_ok (co : comp * optfun T) (hb : list hblock) : Prop :=
    hess_ok (c_shape (fst co)) (snd co) hb.
  Definition ohess_ok (o : optfun T) (hb : list hblock) : Prop := hess_ok (o_shape o) o hb.
  (** Constraint [co] lists [fst hd] and returns the values [snd hd] at [dvec]. *)
  Definition chess_at_ok (dvec : list T) (co : comp * optfun T) (hd : list hblock * list (arr T)) : Prop :=
    chess_ok co (fst hd) /\
    exists A, fun_args p dvec (snd co) = Ok A /\ hess_vals (o_fun (snd co)) A (fst hd) (snd hd).
  (** Objective [o] lists [fst hd] and returns the values [snd hd] at [dvec]. *)
  Definition ohess_at_ok (dvec : list T) (o : optfun T) (hd : list hblock * list (arr T)) : Prop :=
    ohess_ok o (fst hd) /\
    exists A, fun_args p dvec o = Ok A /\ hess_vals (o_fun o) A (fst hd) (snd hd).
  (** [v] is the value of constraint [co] at [dvec], broadcast to its shape. *)
  Definition cval_ok (dvec : list T) (co : comp * optfun T) (v : arr T) : Prop :=
    fits p (snd co) /\ exists A v0, fun_args p dvec (snd co) = Ok A /\
    f_call (o_fun (snd co)) A = Ok v0 /\ broadcast_to n0 v0 (c_shape (fst co)) = Ok v.
  (** [v] is the value of objective [o] at [dvec]. *)
  Definition obj_at_ok (dvec : list T) (o : optfun T) (v : arr T) : Prop :=
    fits p o /\ exists A, fun_args p dvec o = Ok A /\ f_call (o_fun o) A = Ok v.
  (** [gs] is the gradient dictionary of objective [o] at [dvec]. *)
  Definition grad_at_ok (dvec : list T) (o : optfun T) (gs : sdict (arr T)) : Prop :=
    fits p o /\ exists A, fun_args p dvec o = Ok A /\
    grad_vals (o_fun o) (active p o) (param_shape p o) A gs.

  (** Expected entries (decision index, constraint row, value) of one
      constraint's Jacobian: one per listed index. *)
  Definition jentries (sel : string -> nat -> nat) (co : comp * optfun T)
      (jd : list jblock * list (arr T)) : list (Z * (Z * T)) :=
    flat_map (fun bv =>
      combine (map (fun i => Z.of_nat (sel (param (snd co) (jb_w (fst bv))) (Z.to_nat i))) (jb_i (fst bv)))
        (combine (map (fun i => (i + c_off (fst co))%Z) (jb_o (fst bv))) (adat (snd bv))))
      (combine (fst jd) (snd jd)).

  (** Expected entries ((index, index), (output, value)) of one function's
      Hessian; [off] is the constraint's offset. *)
  Definition hentries (sel : string -> nat -> nat) (off : Z) (o : optfun T)
      (hd : list hblock * list (arr T)) : list ((Z * Z) * (Z * T)) :=
    flat_map (fun bv =>
      combine (combine (map (fun i => Z.of_nat (sel (param o (hb_a (fst bv))) (Z.to_nat i))) (hb_i (fst bv)))
                       (map (fun i => Z.of_nat (sel (param o (hb_b (fst bv))) (Z.to_nat i))) (hb_j (fst bv))))
        (combine (map (fun i => (i + off)%Z) (hb_o (fst bv))) (adat (snd bv))))
      (combine (fst hd) (snd hd)).

  (** Last value registered under a name. *)
  Fixpoint last_named (nm : string) (l : list ((comp * optfun T) * arr T)) : option (arr T) :=
    match l with
    | [] => None
    | (co, v) :: r =>
        match last_named nm r with
        | Some x => Some x
        | None => if String.eqb nm (f_name (o_fun (snd co))) then Some v else None
        end
    end.

  (** Every dependent variable is well behaved. *)
  Definition dependents_lawful : Prop :=
    forall name sp, In (name, sp) (p_remapped p) -> exists s, lawful (ndec p) sp s.
End Registered.
