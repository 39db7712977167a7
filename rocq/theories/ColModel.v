(** Model of ceacoest/col.py, oc.py, oem.py and jme.py, and of the collocation
    grid of rk.py. *)
From Coq Require Import String List ZArith Bool Arith Lia.
From Verif Require Import Py NdArray OptimModel.
Import ListNotations.

(** Comparison of numbers ([piece_len > 0], col.py:29). *)
Class NumOrd (T : Type) := { nltb : T -> T -> bool }.
#[export] Instance numord_Z : NumOrd Z := {| nltb := Z.ltb |}.

Section Col.
  Context {T : Type} {NT : Num T} {OT : NumOrd T}.
  Open Scope num_scope.

  (** Number of elements of one row (index on axis 0) of an array. *)
  Definition row_sz (s : shape) : nat := prodn (tl s).
  Definition nrows (s : shape) : nat := hd 0%nat s.

  (** col.py:58-72, PieceRavelledVariable and its [shape]. *)
  Definition piece_shape (u : spec T) (npieces ncol : nat) : shape :=
    npieces :: ncol :: tl (s_shape u).

  (** col.py:79-86, PieceRavelledVariable.unpack_from.
      [out[:-1, -1]] needs ncol > 0 and [out[-1, -1]] needs npieces > 0, else
      IndexError; [ur[-1]] needs a row. *)
  Definition piece_unpack (u : spec T) (npieces ncol : nat) (vec : list T)
    : res (arr T) :=
    let* ur := s_unpack u vec in
    let sh := piece_shape u npieces ncol in
    let out := repeat 0 (prodn sh) in
    let out := flat_set out (vpos sh [ix_all npieces; ix_butlast ncol])
                 (gather (adat ur) (vpos (ash ur) [ix_butlast (nrows (ash ur))])) in
    if (ncol =? 0)%nat then Err IndexError else
    let out := scatter out (vpos sh [ix_butlast npieces; ix_last ncol])
                 (gather out (vpos sh [ix_from1 npieces; [0%nat]])) in
    if (npieces =? 0)%nat then Err IndexError else
    if (nrows (ash ur) =? 0)%nat then Err IndexError else
    Ok (Arr sh (scatter out (vpos sh [ix_last npieces; ix_last ncol])
                  (gather (adat ur) (vpos (ash ur) [ix_last (nrows (ash ur))])))).

  (** col.py:88-96, PieceRavelledVariable.add_to.  A zero step raises
      ValueError; [+=] needs as many selected rows as pieces, or one piece. *)
  Definition piece_add_to (u : spec T) (npieces ncol : nat) (dest : list T)
      (value : arr T) : res (list T) :=
    let sh := piece_shape u npieces ncol in
    let* _ := passert (shape_eqb (ash value) sh) in
    let ninterv := (ncol - 1)%nat in
    let dsh := s_shape u in
    let dec := repeat 0 (prodn dsh) in
    let dec := flat_set dec (vpos dsh [ix_butlast (nrows dsh)])
                 (gather (adat value) (vpos sh [ix_all npieces; ix_butlast ncol])) in
    if (ninterv =? 0)%nat then Err ValueError else
    let rows := ix_step (nrows dsh) ninterv ninterv in
    let* last := (if (length rows =? npieces)%nat
                  then Ok (gather (adat value) (vpos sh [ix_all npieces; ix_last ncol]))
                  else if (npieces =? 1)%nat
                  then Ok (concat (repeat (gather (adat value)
                                     (vpos sh [ix_all npieces; ix_last ncol]))
                                   (length rows)))
                  else Err ValueError) in
    let dec := scatter_add dec (vpos dsh [rows]) last in
    s_add_to u dest (Arr dsh dec).

  (** col.py:98-103, PieceRavelledVariable.convert_ind (elementwise, floor
      division). *)
  Definition piece_convert (u : spec T) (npieces ncol : nat) (ind : list Z)
    : res (list Z) :=
    let sh := piece_shape u npieces ncol in
    s_convert u (map (fun i =>
      i - (i / Z.of_nat (prodn (tl sh))) * Z.of_nat (prodn (tl (tl sh))))%Z ind).

  Definition piece_spec (u : spec T) (npieces ncol : nat) : spec T :=
    Spec (piece_shape u npieces ncol) (piece_unpack u npieces ncol)
         (piece_add_to u npieces ncol) (piece_convert u npieces ncol).

  (** oc.py:38-48, XEVariable and its shape (x is two-dimensional). *)
  Definition xe_shape (x : spec T) : shape := [2%nat; last (s_shape x) 0%nat].

  (** oc.py:55-58, XEVariable.unpack_from: [x[[0, -1]]] *)
  Definition xe_unpack (x : spec T) (vec : list T) : res (arr T) :=
    let* xv := s_unpack x vec in
    let n := nrows (ash xv) in
    if (n =? 0)%nat then Err IndexError else
    Ok (Arr (2%nat :: tl (ash xv)) (gather (adat xv) (vpos (ash xv) [[0; n - 1]%nat]))).

  (** oc.py:60-67, XEVariable.add_to: two row assignments, in order. *)
  Definition xe_add_to (x : spec T) (dest : list T) (value : arr T) : res (list T) :=
    let* _ := passert (shape_eqb (ash value) (xe_shape x)) in
    let xsh := s_shape x in
    let n := nrows xsh in
    if (n =? 0)%nat then Err IndexError else
    let xval := repeat 0 (prodn xsh) in
    let xval := scatter xval (vpos xsh [[0%nat]])
                  (gather (adat value) (vpos (ash value) [[0%nat]])) in
    let xval := scatter xval (vpos xsh [ix_last n])
                  (gather (adat value) (vpos (ash value) [ix_last 2])) in
    s_add_to x dest (Arr xsh xval).

  (** oc.py:69-74, XEVariable.convert_ind *)
  Definition xe_convert (x : spec T) (ind : list Z) : res (list Z) :=
    match s_shape x with
    | [npoints; nx] =>
        s_convert x (map (fun i =>
          i + (if (Z.of_nat nx <=? i)%Z then 1 else 0) * (Z.of_nat npoints - 2)
              * Z.of_nat nx)%Z ind)
    | _ => Err ValueError
    end.

  Definition xe_spec (x : spec T) : spec T :=
    Spec (xe_shape x) (xe_unpack x) (xe_add_to x) (xe_convert x).

  (** oem.py:63-77, XMVariable and its shape. *)
  Definition xm_shape (x : spec T) (kmeas : list nat) : shape :=
    [length kmeas; nth 1 (s_shape x) 0%nat].

  (** oem.py:84-87, XMVariable.unpack_from: [x[kmeas]] *)
  Definition xm_unpack (x : spec T) (kmeas : list nat) (vec : list T) : res (arr T) :=
    let* xv := s_unpack x vec in
    if forallb (fun k => k <? nrows (ash xv))%nat kmeas then
      Ok (Arr (length kmeas :: tl (ash xv)) (gather (adat xv) (vpos (ash xv) [kmeas])))
    else Err IndexError.

  (** oem.py:89-95, XMVariable.add_to: [xval[kmeas] = value] *)
  Definition xm_add_to (x : spec T) (kmeas : list nat) (dest : list T) (value : arr T)
    : res (list T) :=
    let* _ := passert (shape_eqb (ash value) (xm_shape x kmeas)) in
    let xsh := s_shape x in
    if forallb (fun k => k <? nrows xsh)%nat kmeas then
      let xval := scatter (repeat 0 (prodn xsh)) (vpos xsh [kmeas]) (adat value) in
      s_add_to x dest (Arr xsh xval)
    else Err IndexError.

  (** oem.py:97-103, XMVariable.convert_ind.  unravel_index and
      ravel_multi_index raise ValueError out of range. *)
  Definition xm_convert (x : spec T) (kmeas : list nat) (ind : list Z) : res (list Z) :=
    match s_shape x with
    | [npoints; nx] =>
        let* xi := mapM (fun i =>
          if (0 <=? i)%Z && (i <? Z.of_nat (length kmeas * nx))%Z then
            match nth_error kmeas (Z.to_nat i / nx) with
            | Some k => if (k <? npoints)%nat
                        then Ok (Z.of_nat (k * nx + Z.to_nat i mod nx))
                        else Err ValueError
            | None => Err IndexError
            end
          else Err ValueError) ind in
        s_convert x xi
    | _ => Err ValueError
    end.

  Definition xm_spec (x : spec T) (kmeas : list nat) : spec T :=
    Spec (xm_shape x kmeas) (xm_unpack x kmeas) (xm_add_to x kmeas) (xm_convert x kmeas).

  (** ** The collocation grid *)

  (** [np.diff(t)] *)
  Fixpoint diff (t : list T) : list T :=
    match t with
    | a :: ((b :: _) as t') => (b - a) :: diff t'
    | _ => []
    end.

  (** The attributes of rk.LGLCollocation (rk.py:61-73) that col.py uses: the
      order n and the n collocation points. *)
  Record collocation := Colloc { col_n : nat; col_points : list T }.
  Definition ninterv (c : collocation) : nat := (col_n c - 1)%nat.

  (** rk.py:87-93, LGLCollocation.grid *)
  Definition grid (c : collocation) (t : list T) : res (list T) :=
    match t with
    | [] => Err IndexError
    | t0 :: _ =>
        Ok (concat (map (fun tl => map (fun q => fst tl + snd tl * q)
                                       (removelast (col_points c)))
                        (combine (removelast t) (diff t)))
            ++ [last t t0])
    end.

  (** ** Problem constructors *)

  (** Attributes of a generated model class used by the constructors. *)
  Record colmodel := ColModel {
    m_col : collocation;    (* rk.LGLCollocation(model.collocation_order) *)
    m_nx : nat; m_nu : nat; m_np : nat;
    m_ng : nat; m_nh : nat; m_ny : nat; m_nw : nat;
    m_e : fn T; m_IL : fn T; m_M : fn T; m_g : fn T; m_h : fn T;
    m_Lmeas : fn T;         (* model.L of an OEM/JME model *)
    m_tube_L : fn T; m_penalty : fn T; m_use_penalty : bool;
    m_penweight : arr T; m_G : arr T
  }.

  (** [{'k': v, **super().variables(dvec)}] *)
  Definition with_extra (p : problem T) (e : sdict (arr T)) : problem T :=
    Problem (p_decision p) (p_remapped p) (p_objectives p) (p_constraints p)
            (p_ndec p) (p_ncons p) e.

  (** Result of the common constructor: the problem and the attributes
      npieces, tc and npoints. *)
  Record colproblem := ColProblem {
    cp_prob : problem T; cp_npieces : nat; cp_tc : list T; cp_npoints : nat;
    cp_x : comp
  }.

  (** The Decision object [self.decision['x']] or a KeyError. *)
  Definition get_dec (p : problem T) (name : string) : res comp :=
    dlookup String.eqb (p_decision p) name.

  (** col.py:47-51, _init_collocation_variables, and jme.py:22-29 when
      [jme] is set. *)
  Definition init_col_vars (m : colmodel) (jme : bool) (npieces npoints : nat)
      (p : problem T) : res (problem T) :=
    let* p := add_decision p "x" [npoints; m_nx m] in
    let* x := get_dec p "x" in
    let* p := add_dependent p "xp" (piece_spec (dec_spec x) npieces (col_n (m_col m))) in
    if jme then add_decision p "wc" [npieces; ninterv (m_col m); m_nw m] else Ok p.

  (** col.py:14-45, col.Problem.__init__, and 53-55 (piece_len is the only
      extra variable). *)
  Definition col_problem (m : colmodel) (jme : bool) (t : list T) : res colproblem :=
    let c := m_col m in
    if (col_n c <? 2)%nat then Err ValueError else
    let piece_len := diff t in
    let* _ := passert (forallb (fun h => nltb 0 h) piece_len) in
    let npieces := length piece_len in
    let* tc := grid c t in
    let npoints := length tc in
    let* p := init_col_vars m jme npieces npoints new_problem in
    let* p := add_constraint p (m_e m) [npieces; ninterv c; m_nx m] None in
    let* x := get_dec p "x" in
    Ok (ColProblem (with_extra p [("piece_len"%string, Arr [npieces] piece_len)])
          npieces tc npoints x).

  (** oc.py:14-35, oc.Problem.__init__ *)
  Definition oc_problem (m : colmodel) (t : list T) : res (problem T) :=
    let* cp := col_problem m false t in
    let ncol := col_n (m_col m) in
    let* p := add_decision (cp_prob cp) "u" [cp_npoints cp; m_nu m] in
    let* u := get_dec p "u" in
    let* p := add_decision p "p" [m_np m] in
    let* p := add_dependent p "up" (piece_spec (dec_spec u) (cp_npieces cp) ncol) in
    let* p := add_dependent p "xe" (xe_spec (dec_spec (cp_x cp))) in
    let* p := add_objective p (m_IL m) [cp_npieces cp] None in
    let* p := add_objective p (m_M m) [] None in
    let* p := add_constraint p (m_g m) [cp_npoints cp; m_ng m] None in
    add_constraint p (m_h m) [m_nh m] None.

  (** One measurement row: values with their mask flags (true = masked). *)
  Definition yrow := list (T * bool).

  (** oem.py:21-22: rows with some unmasked entry. *)
  Definition kmeas_coarse (y : list yrow) : list nat :=
    filter (fun k => existsb (fun yb => negb (snd yb)) (nth k y []))
           (seq 0 (length y)).
  (** oem.py:23 *)
  Definition kmeas (c : collocation) (y : list yrow) : list nat :=
    map (fun k => k * ninterv c)%nat (kmeas_coarse y).

  (** oem.py:42-45, the piece-ravelled inputs: the same three assignments as
      PieceRavelledVariable.unpack_from. *)
  Definition ravel_inputs (u : list T) (npoints npieces ncol nu : nat) : res (arr T) :=
    let ush := [npoints; nu] in
    let sh := [npieces; ncol; nu] in
    let out := repeat 0 (prodn sh) in
    let out := flat_set out (vpos sh [ix_all npieces; ix_butlast ncol])
                 (gather u (vpos ush [ix_butlast npoints])) in
    if (ncol =? 0)%nat then Err IndexError else
    let out := scatter out (vpos sh [ix_butlast npieces; ix_last ncol])
                 (gather out (vpos sh [ix_from1 npieces; [0%nat]])) in
    if (npieces =? 0)%nat then Err IndexError else
    if (npoints =? 0)%nat then Err IndexError else
    Ok (Arr sh (scatter out (vpos sh [ix_last npieces; ix_last ncol])
                  (gather u (vpos ush [ix_last npoints])))).

  (** The input argument: an array, or a function of the fine time grid. *)
  Inductive uarg := UArr (u : arr T) | UFun (u : list T -> arr T).

  (** oem.py:12-55, oem.Problem.__init__, with the variables added by 57-60.
      The mask of y is not part of the array handed to L: user-supplied L is
      a parameter of the model. *)
  Definition oem_problem (m : colmodel) (jme : bool) (t : list T) (y : list yrow)
      (u : uarg) : res (problem T) :=
    let* cp := col_problem m jme t in
    let c := m_col m in
    let* _ := passert ((length y =? length t)%nat
                       && forallb (fun r => length r =? m_ny m)%nat y) in
    let km := kmeas c y in
    let ysel := concat (map (fun k => map fst (nth k y [])) (kmeas_coarse y)) in
    let nmeas := length km in
    let uv := match u with UArr a => a | UFun f => f (cp_tc cp) end in
    let* _ := passert (shape_eqb (ash uv) [cp_npoints cp; m_nu m]) in
    let* _ := (if forallb (fun k => k <? cp_npoints cp)%nat km then Ok tt
               else Err IndexError) in
    let um := Arr [nmeas; m_nu m] (gather (adat uv) (vpos (ash uv) [km])) in
    let* up := ravel_inputs (adat uv) (cp_npoints cp) (cp_npieces cp) (col_n c) (m_nu m) in
    let* p := add_decision (cp_prob cp) "p" [m_np m] in
    let* x := get_dec p "x" in
    let* p := add_dependent p "xm" (xm_spec (dec_spec x) km) in
    let* p := add_objective p (m_Lmeas m) [nmeas] (Some ["y"; "xm"; "um"; "p"]%string) in
    Ok (with_extra p ([("y"%string, Arr [nmeas; m_ny m] ysel); ("um"%string, um);
                       ("u"%string, uv); ("up"%string, up)] ++ p_extra p)).

  (** jme.py:12-20 and 31-34, jme.Problem *)
  Definition jme_problem (m : colmodel) (t : list T) (y : list yrow) (u : uarg)
    : res (problem T) :=
    let* p := oem_problem m true t y u in
    let npieces := length (diff t) in
    let* p := add_objective p (m_tube_L m) [npieces] None in
    let* p := (if m_use_penalty m then add_objective p (m_penalty m) [npieces] None
               else Ok p) in
    Ok (with_extra p ([("penweight"%string, m_penweight m); ("G"%string, m_G m)]
                      ++ p_extra p)).
End Col.
Arguments collocation T : clear implicits.
Arguments colmodel T : clear implicits.
Arguments colproblem T : clear implicits.
Arguments uarg T : clear implicits.
Arguments yrow T : clear implicits.
