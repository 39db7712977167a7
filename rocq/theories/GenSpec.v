(** Specification vocabulary for generated functions.  Nothing here is code of
    the repository. *)
From Coq Require Import String List ZArith Bool Arith.
From Verif Require Import Py NdArray OptimModel OptimSpec ProblemSpec GenModel.
Import ListNotations.

Section GenSpec.
  Context {T : Type} {NT : Num T}.
  Variable g : gfun T.

  (** Base shape of parameter [w]. *)
  Definition base_of (w : string) : shape :=
    match dget String.eqb (combine (gf_args g) (gf_bases g)) w with Some s => s | None => [] end.

  (** A Jacobian / Hessian entry of the model as an (unbatched) block. *)
  Definition nthrow (d : gderiv T) (k : nat) : list Z := nth k (gd_ind d) [].
  Definition base_jb (d : gderiv T) : jblock := JB (nth 0 (gd_wrt d) EmptyString) (nthrow d 0) (nthrow d 1).
  Definition base_hb (d : gderiv T) : hblock :=
    HB (nth 0 (gd_wrt d) EmptyString) (nth 1 (gd_wrt d) EmptyString) (nthrow d 0) (nthrow d 1) (nthrow d 2).

  (** [w] is a decision parameter: its base shape is the one in base_shapes. *)
  Definition known (w : string) : Prop :=
    In w (gf_args g) /\ dget String.eqb (gf_base_shapes g) w = Some (base_of w).

  (** What code generation guarantees about the attributes of a function. *)
  Record gwf : Prop := {
    gw_args : NoDup (gf_args g);
    gw_bases : length (gf_bases g) = length (gf_args g);
    gw_base : forall A, length (gf_base g A) = prodn (gf_out g);
    gw_jac : Forall (fun d => exists w i o, gd_wrt d = [w] /\ gd_ind d = [i; o] /\ known w /\
      length i = gd_nnz d /\ length o = gd_nnz d /\
      in_range (prodn (base_of w)) i /\ in_range (prodn (gf_out g)) o /\
      forall A, length (gd_val d A) = gd_nnz d) (gf_jac g);
    gw_jac_keys : NoDup (map (@gd_wrt T) (gf_jac g));
    gw_hess : Forall (fun d => exists a b i j o, gd_wrt d = [a; b] /\ gd_ind d = [i; j; o] /\
      known a /\ known b /\
      length i = gd_nnz d /\ length j = gd_nnz d /\ length o = gd_nnz d /\
      in_range (prodn (base_of a)) i /\ in_range (prodn (base_of b)) j /\ in_range (prodn (gf_out g)) o /\
      forall A, length (gd_val d A) = gd_nnz d) (gf_hess g);
    gw_hess_keys : NoDup (map (@gd_wrt T) (gf_hess g));
    gw_grad : Forall (fun wf => In (fst wf) (gf_args g) /\ forall A, length (snd wf A) = prodn (base_of (fst wf))) (gf_grad g);
    gw_grad_keys : NoDup (map fst (gf_grad g))
  }.

  (** Leading axes [l] can be broadcast to [ext]. *)
  Definition bcasts (l ext : shape) : Prop :=
    (length l <= length ext)%nat /\
    forall k, (k < length l)%nat -> nth k l O = nth (length ext - length l + k) ext O \/ nth k l O = 1%nat.

  (** Flat batch position of an argument with leading axes [l] read by the
      batch element with flat position [e]. *)
  Definition at_elem (l ext : shape) (e : nat) : nat := bpos (bpad l ext) ext e.

  (** Parameter [w] has leading axes [LE w]: the arguments [A] fit and their
      leading axes broadcast to [ext]. *)
  Definition args_fit (LE : string -> shape) (ext : shape) (A : list (arr T)) : Prop :=
    Forall2 (fun wb a => ash a = LE (fst wb) ++ snd wb /\ awf a) (combine (gf_args g) (gf_bases g)) A /\
    bshapes (map (fun w => LE w) (gf_args g)) = Ok ext.

  (** Blocks of the batched function: batch element by batch element. *)
  Definition gen_jb (LE : string -> shape) (ext : shape) (d : gderiv T) : jblock :=
    let w := jb_w (base_jb d) in
    JB w
      (flat_map (fun e => map (fun i => i + Z.of_nat (at_elem (LE w) ext e * prodn (base_of w)))%Z (jb_i (base_jb d))) (seq 0 (prodn ext)))
      (flat_map (fun e => map (fun o => o + Z.of_nat (e * prodn (gf_out g)))%Z (jb_o (base_jb d))) (seq 0 (prodn ext))).
  Definition gen_hb (LE : string -> shape) (ext : shape) (d : gderiv T) : hblock :=
    let h := base_hb d in
    HB (hb_a h) (hb_b h)
      (flat_map (fun e => map (fun i => i + Z.of_nat (at_elem (LE (hb_a h)) ext e * prodn (base_of (hb_a h))))%Z (hb_i h)) (seq 0 (prodn ext)))
      (flat_map (fun e => map (fun i => i + Z.of_nat (at_elem (LE (hb_b h)) ext e * prodn (base_of (hb_b h))))%Z (hb_j h)) (seq 0 (prodn ext)))
      (flat_map (fun e => map (fun o => o + Z.of_nat (e * prodn (gf_out g)))%Z (hb_o h)) (seq 0 (prodn ext))).

  (** Base arguments of batch element [e]. *)
  Definition elems (LE : string -> shape) (ext : shape) (A : list (arr T)) (e : nat) : list (list T) :=
    map (fun wba => firstn (prodn (snd (fst wba)))
        (skipn (at_elem (LE (fst (fst wba))) ext e * prodn (snd (fst wba))) (adat (snd wba))))
      (combine (combine (gf_args g) (gf_bases g)) A).

  (** Block values of the batched function. *)
  Definition gen_val (LE : string -> shape) (ext : shape) (A : list (arr T)) (d : gderiv T) : arr T :=
    Arr (ext ++ [gd_nnz d]) (flat_map (fun e => gd_val d (elems LE ext A e)) (seq 0 (prodn ext))).
End GenSpec.
