(** The arrays that [Problem.variables] hands out, as objects in memory.

    OptimModel describes [variables] by the values it returns.  Users also
    write to the arrays (examples/brachistochrone.py:58-72): the decision
    variables are views of the vector they were unpacked from, the dependent
    variables are new arrays, and the constants are the arrays of the problem
    itself.  A buffer is a list of elements of any type (bounds have infinite
    elements, so no arithmetic is assumed of them). *)
From Coq Require Import String List ZArith Bool Arith Lia.
From Verif Require Import Py NdArray OptimModel.
Import ListNotations.

Section Views.
  Context {E : Type} (e0 : E).
  Definition memory := list (list E).
  (** A C-contiguous array: consecutive elements of a buffer. *)
  Record view := View { vw_loc : nat; vw_off : nat; vw_shape : shape }.

  Definition cell (h : memory) (l i : nat) : E := nth i (nth l h []) e0.
  (** The content of an array. *)
  Definition vread (h : memory) (v : view) : arr E :=
    Arr (vw_shape v) (map (fun i => cell h (vw_loc v) (vw_off v + i)) (seq 0 (prodn (vw_shape v)))).
  (** An array that owns a new buffer. *)
  Definition vnew (h : memory) (a : arr E) : memory * view := (h ++ [adat a], View (length h) 0 (ash a)).

  (** optim.py:302-304 [Component.unpack_from] on a 1-D array: slicing gives a
      view, and reshaping a contiguous array gives a view. *)
  Definition comp_view (v : view) (c : comp) : res view :=
    let n := prodn (vw_shape v) in
    let (a, b) := cslice c in
    let s := pynorm n a in
    let e := pynorm n b in
    if Nat.eqb (e - s) (prodn (c_shape c)) then Ok (View (vw_loc v) (vw_off v + s) (c_shape c)) else Err ValueError.

  (** A dependent variable: its shape, and the element of the decision vector
      that each of its elements is (see [lawful] in OptimSpec). *)
  Definition depvar : Type := shape * (nat -> nat).
  (** col.py:79-86 (elements copied to [np.zeros]), oc.py:55-58 and
      oem.py:84-87 (integer-list indexing): a new array. *)
  Definition dep_new (hv : memory * sdict view) (v : view) (nd : string * depvar) : memory * sdict view :=
    let '(h, vs) := hv in
    let '(name, (s, sel)) := nd in
    let '(h', w) := vnew h (Arr s (map (fun i => cell h (vw_loc v) (vw_off v + sel i)) (seq 0 (prodn s)))) in
    (h', vs ++ [(name, w)]).

  (** optim.py:75-80 [variables] and its overrides: decision variables,
      dependent variables, constants. *)
  Definition view_variables (ndec : Z) (dec : sdict comp) (dep : sdict depvar) (extra : sdict view) (h : memory) (v : view) : res (memory * sdict view) :=
    let* _ := passert (match vw_shape v with [n] => Z.of_nat n =? ndec | _ => false end)%Z in
    let* vs := mapM (fun kc => let* w := comp_view v (snd kc) in Ok (fst kc, w)) dec in
    let '(h', vs) := fold_left (fun hv nd => dep_new hv v nd) dep (h, vs) in
    Ok (h', dmerge String.eqb extra (dmake String.eqb vs)).

  (** A subscript: an integer or a slice [a:b], per leading axis. *)
  Inductive sel := At (i : Z) | Sl (a b : option Z).
  Definition axis_ix (d : nat) (s : sel) : res (list nat) :=
    match s with
    | At i => if ((- Z.of_nat d <=? i) && (i <? Z.of_nat d))%Z then Ok [Z.to_nat (if i <? 0 then i + Z.of_nat d else i)%Z] else Err IndexError
    | Sl a b =>
        let lo := match a with Some a => pynorm d a | None => 0 end in
        let hi := match b with Some b => pynorm d b | None => d end in
        Ok (seq lo (hi - lo))
    end.
  (** The indices taken from each axis and the shape of the selection. *)
  Fixpoint select (s : shape) (sl : list sel) {struct sl} : res (list (list nat) * shape) :=
    match sl with
    | [] => Ok ([], s)
    | x :: sl' =>
        match s with
        | [] => Err IndexError
        | d :: s' =>
            let* ix := axis_ix d x in
            let* r := select s' sl' in
            Ok (ix :: fst r, match x with At _ => snd r | Sl _ _ => length ix :: snd r end)
        end
    end.
  (** [v[sl] = value]: the value is broadcast to the selection.  (NumPy also
      drops leading axes of length one from the value; not modelled.) *)
  Definition vset (h : memory) (v : view) (sl : list sel) (value : arr E) : res memory :=
    let* r := select (vw_shape v) sl in
    let* w := broadcast_to e0 value (snd r) in
    let buf := scatter (nth (vw_loc v) h []) (map (fun p => vw_off v + p) (vpos (vw_shape v) (fst r))) (adat w) in
    Ok (upd h (vw_loc v) buf).
  (** [vars[name][sl] = value] *)
  Definition var_set (h : memory) (vars : sdict view) (name : string) (sl : list sel) (value : arr E) : res memory :=
    let* v := dlookup String.eqb vars name in vset h v sl value.

  (** [np.repeat([[a], [b]], n, axis=-1)], unpacked in its two rows. *)
  Definition two_rows (h : memory) (a b : E) (n : nat) : memory * (view * view) :=
    (h ++ [repeat a n ++ repeat b n], (View (length h) 0 [n], View (length h) n [n])).
  (** A Python scalar. *)
  Definition scalar (x : E) : arr E := Arr [] [x].
  Definition vector (l : list E) : arr E := Arr [length l] l.
End Views.
Arguments view_variables {E} e0 ndec dec dep extra h v.
Arguments memory E : clear implicits.
