(** Specification vocabulary: derivatives of registered functions and of
    whole problems, over the real numbers.  Nothing here is code of the
    repository. *)
From Coq Require Import String List ZArith Bool Arith Reals.
From Coquelicot Require Import Coquelicot.
From Verif Require Import Py NdArray OptimModel ColModel OptimSpec ProblemSpec.
Import ListNotations.
Local Open Scope R_scope.

(** Real arithmetic for the generic model.  Floating-point rounding is not
    modelled. *)
#[export] Instance num_R : Num R := {|
  n0 := 0; n1 := 1; nadd := Rplus; nmul := Rmult; nsub := Rminus; nopp := Ropp;
  num_rt := RTheory |}.
#[export] Instance numord_R : NumOrd R := {| nltb := fun x y => if Rlt_dec x y then true else false |}.

(** The vector [x + t * e]. *)
Definition vmove (x : list R) (e : nat -> R) (t : R) : list R :=
  map (fun q => nth q x 0 + t * e q) (seq 0 (length x)).

(** Arguments moved along a direction [D w i] (parameter [w], element [i]). *)
Definition move (sig : list string) (A : list (arr R)) (D : string -> nat -> R) (t : R) : list (arr R) :=
  map (fun wa => Arr (ash (snd wa)) (vmove (adat (snd wa)) (D (fst wa)) t)) (combine sig A).

(** A direction that only moves the parameters in [W]. *)
Definition supported (W : list string) (D : string -> nat -> R) : Prop :=
  forall w i, ~ In w W -> D w i = 0.

(** Elements of the function value ([] if the call raises). *)
Definition callv (f : fn R) (A : list (arr R)) : list R :=
  match f_call f A with Ok v => adat v | Err _ => [] end.

(** Sum of a list of reals. *)
Definition rsum (l : list R) : R := fold_right Rplus 0 l.

(** Contribution to output [q] of sparse entries: cells, output numbers,
    values; [D] is the weight of a cell. *)
Definition tsum {C} (cells : list C) (outs : list Z) (vals : list R) (D : C -> R) (q : Z) : R :=
  rsum (map (fun e => if (fst (snd e) =? q)%Z then snd (snd e) * D (fst e) else 0)
            (combine cells (combine outs vals))).

(** Cells and outputs of a list of Jacobian blocks. *)
Definition jcells (jb : list jblock) : list (string * Z) :=
  flat_map (fun b => map (fun i => (jb_w b, i)) (jb_i b)) jb.
Definition jouts (jb : list jblock) : list Z := flat_map jb_o jb.

(** Cells and outputs of a list of Hessian blocks. *)
Definition hcells (hb : list hblock) : list ((string * Z) * (string * Z)) :=
  flat_map (fun b => combine (map (fun i => (hb_a b, i)) (hb_i b)) (map (fun j => (hb_b b, j)) (hb_j b))) hb.
Definition houts (hb : list hblock) : list Z := flat_map hb_o hb.

Definition cell_eqb (a b : string * Z) : bool := String.eqb (fst a) (fst b) && (snd a =? snd b)%Z.

(** A sparse triangular entry (a, b, v) stands for v at (a, b) and at (b, a);
    its contribution to the bilinear form, per unit of v. *)
Definition sym {C} (eqb : C -> C -> bool) (D E : C -> R) (ab : C * C) : R :=
  if eqb (fst ab) (snd ab) then D (fst ab) * E (fst ab)
  else D (fst ab) * E (snd ab) + D (snd ab) * E (fst ab).

Definition on_cell (D : string -> nat -> R) (c : string * Z) : R := D (fst c) (Z.to_nat (snd c)).

(** [v] is the mixed second derivative of [F s t] at the origin. *)
Definition d2 (F : R -> R -> R) (v : R) : Prop :=
  locally 0 (fun t => ex_derive (fun s => F s t) 0) /\
  is_derive (fun t => Derive (fun s => F s t) 0) 0 v.

(** The function succeeds with the registered shape along every line. *)
Definition calls_ok (f : fn R) (W : list string) (out : shape) (A : list (arr R)) : Prop :=
  forall D E s t, supported W D -> supported W E ->
  exists v, call_ok f (move (f_sig f) (move (f_sig f) A E t) D s) out v.

(** At arguments [A], the listed Jacobian values are the derivatives of the
    function with respect to the parameters in [W]. *)
Definition jac_law (f : fn R) (W : list string) (out : shape) (A : list (arr R))
    (jb : list jblock) (vals : list (arr R)) : Prop :=
  jac_vals f A jb vals /\
  forall D o, supported W D -> (o < prodn out)%nat ->
  is_derive (fun t => nth o (callv f (move (f_sig f) A D t)) 0) 0
    (tsum (jcells jb) (jouts jb) (flat_map adat vals) (on_cell D) (Z.of_nat o)).

(** At arguments [A], the gradient arrays are the derivatives of the sum of
    the function's elements. *)
Definition grad_law (f : fn R) (W : list string) (SH : string -> shape) (A : list (arr R))
    (gs : sdict (arr R)) : Prop :=
  grad_vals f W SH A gs /\
  forall D, supported W D ->
  is_derive (fun t => rsum (callv f (move (f_sig f) A D t))) 0
    (rsum (map (fun g => rsum (map (fun i => nth i (adat (snd g)) 0 * D (fst g) i)
                                   (seq 0 (length (adat (snd g)))))) gs)).

(** At arguments [A], the listed triangular Hessian values represent the
    second derivatives of the function. *)
Definition hess_law (f : fn R) (W : list string) (out : shape) (A : list (arr R))
    (hb : list hblock) (vals : list (arr R)) : Prop :=
  hess_vals f A hb vals /\
  forall D E o, supported W D -> supported W E -> (o < prodn out)%nat ->
  d2 (fun s t => nth o (callv f (move (f_sig f) (move (f_sig f) A E t) D s)) 0)
     (tsum (hcells hb) (houts hb) (flat_map adat vals)
           (sym cell_eqb (on_cell D) (on_cell E)) (Z.of_nat o)).

(** Problem values as total functions (0 / [] when the call raises; the
    theorems also state that it does not). *)
Definition objv (p : problem R) (d : list R) : R := match obj p d with Ok v => v | Err _ => 0 end.
Definition constrv (p : problem R) (d : list R) : list R := match constr p d with Ok v => v | Err _ => [] end.

(** The Lagrangian with objective multiplier [s] and constraint multipliers [m]. *)
Definition lagrangian (p : problem R) (s : R) (m : list R) (d : list R) : R :=
  s * objv p d + rsum (map (fun q => nth q m 0 * nth q (constrv p d) 0) (seq 0 (ncons p))).

(** Everything needed of constraint [co] at [dvec] for first derivatives;
    the data are its argument values, listed blocks and block values. *)
Notation jac_data := (list (arr R) * (list jblock * list (arr R)))%type.
Definition constr_diff (p : problem R) (dvec : list R) (co : comp * optfun R) (d : jac_data) : Prop :=
  let (A, jd) := d in
  let f := o_fun (snd co) in
  let W := active p (snd co) in
  jac_ok p co (fst jd) /\ fun_args p dvec (snd co) = Ok A /\
  calls_ok f W (c_shape (fst co)) A /\ jac_law f W (c_shape (fst co)) A (fst jd) (snd jd).

(** Everything needed of objective [o] at [dvec] for the gradient. *)
Definition obj_diff (p : problem R) (dvec : list R) (o : optfun R) (d : list (arr R) * sdict (arr R)) : Prop :=
  let (A, gs) := d in
  fits p o /\ fun_args p dvec o = Ok A /\
  calls_ok (o_fun o) (active p o) (o_shape o) A /\
  grad_law (o_fun o) (active p o) (param_shape p o) A gs.

(** Everything needed of a function for second derivatives. *)
Notation hess_data := (list (arr R) * (list hblock * list (arr R)))%type.
Definition fun_diff2 (p : problem R) (dvec : list R) (s : shape) (o : optfun R) (d : hess_data) : Prop :=
  let (A, hd) := d in
  hess_ok p s o (fst hd) /\ fun_args p dvec o = Ok A /\
  calls_ok (o_fun o) (active p o) s A /\ hess_law (o_fun o) (active p o) s A (fst hd) (snd hd).

(** Different argument elements of one listed Hessian entry are different
    decisions.  True when no two arguments of the function share decisions. *)
Definition no_alias (sel : string -> nat -> nat) (o : optfun R) (hb : list hblock) : Prop :=
  forall c1 c2, In (c1, c2) (hcells hb) -> c1 <> c2 ->
  sel (param o (fst c1)) (Z.to_nat (snd c1)) <> sel (param o (fst c2)) (Z.to_nat (snd c2)).

(** Standard basis direction. *)
Definition basis (j : nat) (k : nat) : R := if Nat.eqb k j then 1 else 0.

(** Bilinear form of a symmetric matrix given by triangular entries. *)
Definition symform (i0 i1 : list Z) (vals : list R) (D E : nat -> R) : R :=
  rsum (map (fun e => snd e * sym Z.eqb (fun z => D (Z.to_nat z)) (fun z => E (Z.to_nat z)) (fst e))
            (combine (combine i0 i1) vals)).

(** Entry (j, k) of a matrix given by triplets (repeated entries add up) ... *)
Definition dense (i0 i1 : list Z) (vals : list R) (j k : nat) : R :=
  rsum (map (fun e => if ((fst (fst e) =? Z.of_nat j) && (snd (fst e) =? Z.of_nat k))%Z%bool
                      then snd e else 0) (combine (combine i0 i1) vals)).
(** ... and of the symmetric matrix a triangle of which is given. *)
Definition dense_sym (i0 i1 : list Z) (vals : list R) (j k : nat) : R :=
  if Nat.eqb j k then dense i0 i1 vals j j
  else dense i0 i1 vals j k + dense i0 i1 vals k j.
