(** Model of ceacoest/modelling/genoptim.py. *)
From Coq Require Import String List ZArith Bool Arith Lia.
From Verif Require Import Py NdArray OptimModel.
Import ListNotations.

Section Gen.
  Context {T : Type} {NT : Num T}.
  Open Scope num_scope.

  (** ** Generated code (sym2num, outside the repository)

      A generated function works on arrays whose trailing axes have the base
      shape of the argument; the leading axes of all arguments are broadcast
      together and the base expression is evaluated for every element. *)

  (** NumPy broadcasting of two shapes, last axis first. *)
  Fixpoint bmerge (s t : shape) : res shape :=
    match s, t with
    | [], _ => Ok t
    | _, [] => Ok s
    | a :: s', b :: t' =>
        let* r := bmerge s' t' in
        if (a =? b)%nat then Ok (a :: r)
        else if (a =? 1)%nat then Ok (b :: r)
        else if (b =? 1)%nat then Ok (a :: r)
        else Err ValueError
    end.
  (** [np.broadcast(...).shape] *)
  Definition bshapes (l : list shape) : res shape :=
    let* r := foldM (fun acc s => bmerge acc (rev s)) [] l in Ok (rev r).

  (** Leading axes of a shape that ends in [base]. *)
  Definition lead (base s : shape) : shape := firstn (length s - length base) s.
  Definition ends_in (base s : shape) : bool :=
    shape_eqb (skipn (length s - length base) s) base.

  (** Base-shaped element of argument [a] used by batch element [e]. *)
  Definition elem (ext base : shape) (a : arr T) (e : nat) : list T :=
    let l := lead base (ash a) in
    let k := bpos (bpad l ext) ext e in
    firstn (prodn base) (skipn (k * prodn base) (adat a)).

  Definition batch (bases : list shape) (out : shape) (f : list (list T) -> list T)
      (A : list (arr T)) : res (arr T) :=
    if negb (length A =? length bases)%nat then Err TypeError else
    if negb (forallb (fun ba => ends_in (fst ba) (ash (snd ba))) (combine bases A))
    then Err ValueError else
    let* ext := bshapes (map (fun ba => lead (fst ba) (ash (snd ba))) (combine bases A)) in
    Ok (Arr (ext ++ out)
          (flat_map (fun e => f (map (fun ba => elem ext (fst ba) (snd ba) e) (combine bases A)))
             (seq 0 (prodn ext)))).

  (** ** The generated model's attributes *)

  (** One entry of [self._jac] or [self._hess] with the model attributes
      [{dname}_nnz], [{dname}_ind] and [{dname}_val] (symoptim.py:52-55, 147-154). *)
  Record gderiv := GD {
    gd_wrt : tkey; gd_nnz : nat; gd_ind : list (list Z); gd_val : list (list T) -> list T
  }.

  (** genoptim.py:33-46, 131-139, 178-183, 206-220: an OptimizationFunction
      object.  For an objective [gf_out] is () and [gf_jac] is unused; for a
      constraint [gf_grad] is unused.  [gf_base_shapes] is model.base_shapes. *)
  Record gfun := GF {
    gf_name : string;
    gf_args : list string;
    gf_bases : list shape;
    gf_out : shape;
    gf_base : list (list T) -> list T;
    gf_grad : sdict (list (list T) -> list T);
    gf_jac : list gderiv;
    gf_hess : list gderiv;
    gf_base_shapes : sdict shape
  }.

  (** genoptim.py:243-244 *)
  Definition shape_size (s : shape) : nat := prodn s.

  (** genoptim.py:247-249, ndim_range, scaled as in line 96 and 101. *)
  Definition ndim_range (s : shape) (mult : nat) : arr Z :=
    Arr s (map (fun i => Z.of_nat (i * mult)) (seq 0 (prodn s))).

  (** genoptim.py:59-74, _shape_ext, once the base shape is known.  For an
      empty base shape both branches return [shape]. *)
  Definition ext_of (base s : shape) : res shape :=
    match base with
    | [] => Ok s
    | _ => let* _ := passert (ends_in base s) in Ok (lead base s)
    end.

  (** genoptim.py:76-82 *)
  Definition sparse_nnz (g : gfun) (ds : list gderiv) (out_shape : shape) : res nat :=
    let* ext := ext_of (gf_out g) out_shape in
    Ok (fold_left (fun acc d => acc + gd_nnz d * shape_size ext)%nat ds O).

  (** [ind + offs[..., None]], raveled *)
  Definition shifted (ind offs : list Z) : list Z :=
    flat_map (fun o => map (fun i => (i + o)%Z) ind) offs.

  (** genoptim.py:90-97: the extended indices of one variable. *)
  Definition wrt_row (g : gfun) (dec_shapes : sdict shape) (out_shape : shape)
      (wrt_name : string) (wrt_ind : list Z) : res (list Z) :=
    let* wrt_ext :=
      (match dget String.eqb dec_shapes wrt_name with
       | None => Ok []
       | Some s => let* b := dlookup String.eqb (gf_base_shapes g) wrt_name in ext_of b s
       end) in
    let* wrt_base := dlookup String.eqb (gf_base_shapes g) wrt_name in
    let* out_ext := ext_of (gf_out g) out_shape in
    let* offs := broadcast_to 0%Z (ndim_range wrt_ext (shape_size wrt_base)) out_ext in
    Ok (shifted wrt_ind (adat offs)).

  (** genoptim.py:84-106.  [base_ind[-1]] of an array without rows raises
      IndexError; [wrt] is never empty. *)
  Definition sparse_ind (g : gfun) (ds : list gderiv) (dec_shapes : sdict shape)
      (out_shape : shape) : res (list (tkey * list (list Z))) :=
    mapM (fun d =>
      let* rows := mapM (fun wi => wrt_row g dec_shapes out_shape (fst wi) (snd wi))
                        (combine (gd_wrt d) (gd_ind d)) in
      let* out_ext := ext_of (gf_out g) out_shape in
      match rev (gd_ind d) with
      | [] => Err IndexError
      | oi :: _ =>
          Ok (gd_wrt d, rows ++ [shifted oi (adat (ndim_range out_ext (shape_size (gf_out g))))])
      end) ds.

  (** genoptim.py:108-112 *)
  Definition sparse_val (g : gfun) (ds : list gderiv) (A : list (arr T))
    : res (list (tkey * arr T)) :=
    mapM (fun d => let* v := batch (gf_bases g) [gd_nnz d] (gd_val d) A in Ok (gd_wrt d, v)) ds.

  (** [a.reshape(-1, *s).sum(0)] *)
  Definition sum_lead (a : arr T) (s : shape) : res (arr T) :=
    let m := prodn s in
    if (m =? 0)%nat then Err ValueError else
    if negb (length (adat a) mod m =? 0)%nat then Err ValueError else
    Ok (Arr s (map (fun i => lsum (map (fun k => nth (k * m + i)%nat (adat a) 0)
                                       (seq 0 (length (adat a) / m)))) (seq 0 m))).

  (** Position of a parameter in the signature ([arg_indices], line 151). *)
  Fixpoint index_of (l : list string) (w : string) : option nat :=
    match l with
    | [] => None
    | x :: l' => if String.eqb w x then Some O
                 else match index_of l' w with Some i => Some (S i) | None => None end
    end.

  (** genoptim.py:149-170, ObjectiveFunction.grad (positional call). *)
  Definition gen_grad (g : gfun) (A : list (arr T)) : res (sdict (arr T)) :=
    foldM (fun ret wg =>
      let* wrt_base := (match index_of (gf_args g) (fst wg) with
                        | Some i => Ok (nth i (gf_bases g) []) | None => Err KeyError end) in
      let* v := batch (gf_bases g) wrt_base (snd wg) A in
      if (length (adat v) =? 0)%nat then Ok ret else
      match index_of (gf_args g) (fst wg) with
      | None => Err KeyError
      | Some i =>
          match nth_error A i with
          | None => Err IndexError
          | Some a => let* s := sum_lead v (ash a) in Ok (ret ++ [(fst wg, s)])
          end
      end) [] (gf_grad g).

  (** The object as [optim.Problem] sees it: genoptim.py:56-57, 114-121,
      148-170, 190-198. *)
  Definition gen_fn (g : gfun) : fn T := {|
    f_name := gf_name g;
    f_sig := gf_args g;
    f_call := batch (gf_bases g) (gf_out g) (gf_base g);
    f_grad := gen_grad g;
    f_jac_nnz := fun _ out => sparse_nnz g (gf_jac g) out;
    f_jac_ind := fun vs out => sparse_ind g (gf_jac g) vs out;
    f_jac_val := sparse_val g (gf_jac g);
    f_hess_nnz := fun _ out => sparse_nnz g (gf_hess g) out;
    f_hess_ind := fun vs out => sparse_ind g (gf_hess g) vs out;
    f_hess_val := sparse_val g (gf_hess g)
  |}.
End Gen.
Arguments gderiv T : clear implicits.
Arguments gfun T : clear implicits.
