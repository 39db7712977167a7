(** Properties C01-C07: layout of decision and constraint vectors, and the
    variable kinds. *)
From Coq Require Import String List ZArith Bool Arith Lia.
From Verif Require Import Py NdArray OptimModel ColModel Builder BuilderLemmas
  OptimSpec OptimLaws LawFacts LayoutLemmas.
Import ListNotations.
Local Open Scope string_scope.
Local Open Scope list_scope.

(** ** C01.  After any history of builder calls (some possibly rejected), the
    slices of the decision variables, in registration order, and of the
    constraints, in registration order, tile [0, ndec) and [0, ncons). *)
Theorem C01_slices_tile (T : Type) (NT : Num T) (ops : list (op T)) :
  Forall op_small ops ->
  let p := history ops in
  adjacent 0 (map (fun kc => cslice (snd kc)) (p_decision p)) (p_ndec p) /\
  adjacent 0 (map (fun co => cslice (fst co)) (p_constraints p)) (p_ncons p).
Proof.
  exact (fun H => conj (inv_dec _ (inv_history ops H)) (inv_cons _ (inv_history ops H))).
Qed.
Print Assumptions C01_slices_tile.

(** ... each slice is as long as its component has elements ... *)
Theorem C01_slice_length (T : Type) (NT : Num T) (ops : list (op T)) :
  Forall op_small ops ->
  let p := history ops in
  Forall (fun kc => (snd (cslice (snd kc)) - fst (cslice (snd kc)))%Z = prodZ (c_shape (snd kc)))
         (p_decision p) /\
  Forall (fun co => (snd (cslice (fst co)) - fst (cslice (fst co)))%Z = prodZ (c_shape (fst co)))
         (p_constraints p).
Proof. exact (slices_sizes ops). Qed.
Print Assumptions C01_slice_length.

(** ... so every entry of the decision vector belongs to exactly one
    decision variable, and likewise for constraints. *)
Theorem C01_entry_owner (T : Type) (NT : Num T) (ops : list (op T)) (q : Z) :
  Forall op_small ops ->
  let p := history ops in
  let owns l i := (i < length l)%nat /\
                  (fst (nth i l (0, 0)) <= q < snd (nth i l (0, 0)))%Z in
  ((0 <= q < p_ndec p)%Z ->
     exists i, owns (map (fun kc => cslice (snd kc)) (p_decision p)) i /\
     forall j, owns (map (fun kc => cslice (snd kc)) (p_decision p)) j -> j = i) /\
  ((0 <= q < p_ncons p)%Z ->
     exists i, owns (map (fun co => cslice (fst co)) (p_constraints p)) i /\
     forall j, owns (map (fun co => cslice (fst co)) (p_constraints p)) j -> j = i).
Proof. exact (entry_owner ops q). Qed.
Print Assumptions C01_entry_owner.

(** A history with a rejected registration, a scalar, a matrix and two constraints. *)
Definition ex_fn : fn Z :=
  Fn "g" [] (fun _ => Ok (Arr [2%nat] [3%Z; 4%Z])) (fun _ => Ok []) (fun _ _ => Ok O)
     (fun _ _ => Ok []) (fun _ => Ok []) (fun _ _ => Ok O) (fun _ _ => Ok []) (fun _ => Ok []).
Definition ex_ops : list (op Z) :=
  [AddDecision "x" [3; 2]%nat; AddConstraint ex_fn [2%nat] None; AddDecision "p" [];
   AddDecision "x" [7%nat]; AddConstraint ex_fn [4%nat] None; AddDecision "u" [0; 5]%nat;
   AddDecision "q" [4%nat]].
Example C01_nonvacuous : Forall op_small ex_ops /\
  map (fun kc => (fst kc, cslice (snd kc))) (p_decision (history ex_ops))
    = [("x", (0, 6)); ("p", (6, 7)); ("u", (7, 7)); ("q", (7, 11))]%Z /\
  map (fun co => cslice (fst co)) (p_constraints (history ex_ops)) = [(0, 2); (2, 6)]%Z /\
  p_ndec (history ex_ops) = 11%Z /\ p_ncons (history ex_ops) = 6%Z.
Proof. split; [|vm_compute; auto]. repeat constructor. Qed.

(** ** C02, refuted.  Without the size bound the tiling is false: sizes are
    computed in a 32-bit C int.  A (65536, 65536) variable takes no room, and
    a following variable of shape (2,) starts at the same offset. *)
Theorem C02_large_shapes_refuted : exists ops : list (op Z),
  let p := history ops in
  exists c, dlookup String.eqb (p_decision p) "a" = Ok c /\
    prodZ (c_shape c) = (2 ^ 32)%Z /\ cslice c = (0, 0)%Z /\
    p_ndec p = 2%Z /\
    exists d, dlookup String.eqb (p_decision p) "b" = Ok d /\ cslice d = (0, 2)%Z /\
    variables p [1%Z; 2%Z] = Err ValueError.
Proof. exact large_shapes. Qed.
Print Assumptions C02_large_shapes_refuted.

(** ** C03.  Names are unique across both kinds of variable ... *)
Theorem C03_unique_names (T : Type) (NT : Num T) (ops : list (op T)) :
  NoDup (map fst (p_decision (history ops)) ++ map fst (p_remapped (history ops))).
Proof. exact (names_nodup ops). Qed.
Print Assumptions C03_unique_names.

(** ... a registration is rejected exactly when the name is taken, with
    ValueError and leaving the problem as it was; otherwise exactly one
    variable is appended and nothing else changes ... *)
Theorem C03_registration (T : Type) (NT : Num T) (p : problem T) (name : string) :
  let taken := In name (map fst (p_decision p) ++ map fst (p_remapped p)) in
  (forall s,
    (taken /\ add_decision_st p name s = (p, Some ValueError)) \/
    (~ taken /\ exists p', add_decision_st p name s = (p', None) /\
       p_decision p' = p_decision p ++ [(name, Comp s (p_ndec p))] /\
       p_remapped p' = p_remapped p /\ p_objectives p' = p_objectives p /\
       p_constraints p' = p_constraints p)) /\
  (forall sp,
    (taken /\ add_dependent_st p name sp = (p, Some ValueError)) \/
    (~ taken /\ exists p', add_dependent_st p name sp = (p', None) /\
       p_decision p' = p_decision p /\ p_ndec p' = p_ndec p /\
       p_remapped p' = p_remapped p ++ [(name, sp)] /\ p_objectives p' = p_objectives p /\
       p_constraints p' = p_constraints p)).
Proof. exact (conj (add_decision_cases p name) (add_dependent_cases p name)). Qed.
Print Assumptions C03_registration.

(** ... and later calls never change what a name stands for. *)
Theorem C03_names_stable (T : Type) (NT : Num T) (ops1 ops2 : list (op T)) name sp :
  variable_spec (history ops1) name = Ok sp ->
  variable_spec (history (ops1 ++ ops2)) name = Ok sp.
Proof. exact (variable_spec_stable ops1 ops2 name sp). Qed.
Print Assumptions C03_names_stable.

Example C03_nonvacuous :
  snd (add_decision_st (history ex_ops) "u" [1%nat]) = Some ValueError /\
  snd (add_dependent_st (history ex_ops) "u" (dec_spec (Comp [] 0))) = Some ValueError /\
  snd (add_decision_st (history ex_ops) "v" [1%nat]) = None /\
  variable_spec (history [AddDecision "x" [3; 2]%nat]) "x"
    = Ok (dec_spec (T := Z) (Comp [3; 2]%nat 0)).
Proof. repeat split. Qed.

(** ** C04.  Writing then reading returns the broadcast value; nothing
    outside the component's slice changes. *)
Theorem C04_pack_unpack (T : Type) (NT : Num T) n c off dest (v w : arr T) :
  comp_fits n c off -> length dest = n -> broadcast_to n0 v (c_shape c) = Ok w ->
  exists dest', c_pack_into c dest v = Ok dest' /\ length dest' = n /\
    c_unpack c dest' = Ok w /\
    forall q, (q < off \/ off + prodn (c_shape c) <= q)%nat -> nth q dest' n0 = nth q dest n0.
Proof. exact (pack_unpack n c off dest v w). Qed.
Print Assumptions C04_pack_unpack.

(** Accumulating adds the broadcast value to what was there, and nothing
    outside the slice changes. *)
Theorem C04_add_unpack (T : Type) (NT : Num T) n c off dest (v w old : arr T) :
  comp_fits n c off -> length dest = n -> broadcast_to n0 v (c_shape c) = Ok w ->
  c_unpack c dest = Ok old ->
  exists dest' new, c_add_to c dest v = Ok dest' /\ length dest' = n /\
    c_unpack c dest' = Ok new /\ ash new = c_shape c /\ awf new /\
    (forall i, (i < prodn (c_shape c))%nat ->
       nth i (adat new) n0 = nadd (nth i (adat old) n0) (nth i (adat w) n0)) /\
    forall q, (q < off \/ off + prodn (c_shape c) <= q)%nat -> nth q dest' n0 = nth q dest n0.
Proof. exact (add_unpack n c off dest v w old). Qed.
Print Assumptions C04_add_unpack.

(** The value is accepted exactly under NumPy's broadcasting rule, and its
    elements are repeated according to that rule. *)
Theorem C04_broadcast_rule (T : Type) (NT : Num T) (v : arr T) (t : shape) :
  ((exists w, broadcast_to n0 v t = Ok w) <->
   (length (ash v) <= length t)%nat /\
   forall k, (k < length (ash v))%nat ->
     let d := nth k (ash v) O in
     d = nth (length t - length (ash v) + k) t O \/ d = 1%nat) /\
  forall w ix, broadcast_to n0 v t = Ok w -> length ix = length t ->
    (forall k, (k < length t)%nat -> (nth k ix O < nth k t O)%nat) ->
    nth (ravel t ix) (adat w) n0 = nth (ravel (ash v) (bcast_index (ash v) ix)) (adat v) n0.
Proof.
  exact (conj (broadcast_ok_iff v t) (fun w ix => broadcast_elem v w t ix)).
Qed.
Print Assumptions C04_broadcast_rule.

(** A destination too short for the component is refused. *)
Theorem C04_short_destination (T : Type) (NT : Num T) c (dest : list T) (v : arr T) :
  (Z.of_nat (length dest) < c_off c + csize c)%Z ->
  c_pack_into c dest v = Err AssertionError /\ c_add_to c dest v = Err AssertionError.
Proof. exact (pack_too_short c dest v). Qed.
Print Assumptions C04_short_destination.

(** In a reachable problem every component satisfies [comp_fits]. *)
Theorem C04_components_fit (T : Type) (NT : Num T) (ops : list (op T)) :
  Forall op_small ops ->
  let p := history ops in
  (forall name c, In (name, c) (p_decision p) ->
     comp_fits (Z.to_nat (p_ndec p)) c (Z.to_nat (c_off c))) /\
  (forall c o, In (c, o) (p_constraints p) ->
     comp_fits (Z.to_nat (p_ncons p)) c (Z.to_nat (c_off c))).
Proof.
  exact (fun H => conj (fun name c => inv_dec_fits _ name c (inv_history ops H))
                       (fun c o => inv_cons_fits _ c o (inv_history ops H))).
Qed.
Print Assumptions C04_components_fit.

Example C04_nonvacuous :
  comp_fits 8 (Comp [2; 3]%nat 1) 1 /\
  broadcast_to 0%Z (Arr [1; 3]%nat [7; 8; 9]%Z) [2; 3]%nat
    = Ok (Arr [2; 3]%nat [7; 8; 9; 7; 8; 9]%Z) /\
  c_pack_into (Comp [2; 3]%nat 1) [1; 1; 1; 1; 1; 1; 1; 5]%Z (Arr [1; 3]%nat [7; 8; 9]%Z)
    = Ok [1; 7; 8; 9; 7; 8; 9; 5]%Z /\
  c_add_to (Comp [2; 3]%nat 1) [1; 1; 1; 1; 1; 1; 1; 5]%Z (Arr [1; 3]%nat [7; 8; 9]%Z)
    = Ok [1; 8; 9; 10; 8; 9; 10; 5]%Z.
Proof. vm_compute. repeat split; lia. Qed.

(** ** C05 and C06.  For every kind of variable over a decision component:
    reading agrees with index conversion, accumulation is the adjoint of
    reading, and adds to each entry the values whose index converts to it. *)
Theorem C05_C06_decision (T : Type) (NT : Num T) n c off :
  comp_fits n c off ->
  let sp := dec_spec (T := T) c in
  index_consistent n sp /\ adjoint n sp /\ accumulates n sp.
Proof. exact (fun F => lawful_all _ _ _ (dec_lawful n c off F)). Qed.
Print Assumptions C05_C06_decision.

Theorem C05_C06_piece (T : Type) (NT : Num T) n c off np ncol rest :
  comp_fits n c off -> c_shape c = (np * (ncol - 1) + 1)%nat :: rest ->
  (2 <= ncol)%nat -> (1 <= np)%nat ->
  let sp := piece_spec (dec_spec (T := T) c) np ncol in
  index_consistent n sp /\ adjoint n sp /\ accumulates n sp.
Proof.
  exact (fun F E H1 H2 => lawful_all _ _ _ (piece_lawful n _ _ np ncol rest (dec_lawful n c off F) E H1 H2)).
Qed.
Print Assumptions C05_C06_piece.

Theorem C05_C06_endpoints (T : Type) (NT : Num T) n c off npts nx :
  comp_fits n c off -> c_shape c = [npts; nx] -> (2 <= npts)%nat ->
  let sp := xe_spec (dec_spec (T := T) c) in
  index_consistent n sp /\ adjoint n sp /\ accumulates n sp.
Proof.
  exact (fun F E H => lawful_all _ _ _ (xe_lawful n _ _ npts nx (dec_lawful n c off F) E H)).
Qed.
Print Assumptions C05_C06_endpoints.

Theorem C05_C06_measurement (T : Type) (NT : Num T) n c off npts nx km :
  comp_fits n c off -> c_shape c = [npts; nx] ->
  (forall k, In k km -> (k < npts)%nat) -> NoDup km ->
  let sp := xm_spec (dec_spec (T := T) c) km in
  index_consistent n sp /\ adjoint n sp /\ accumulates n sp.
Proof.
  exact (fun F E H1 H2 => lawful_all _ _ _ (xm_lawful n _ _ npts nx km (dec_lawful n c off F) E H1 H2)).
Qed.
Print Assumptions C05_C06_measurement.

(** A 2-piece, 3-point-per-piece trajectory of two states at offset 1 of 12. *)
Example C05_C06_nonvacuous :
  let c := Comp [5; 2]%nat 1 in
  let x := dec_spec (T := Z) c in
  let d := map Z.of_nat (seq 0 12) in
  comp_fits 12 c 1 /\
  s_unpack (piece_spec x 2 3) d
    = Ok (Arr [2; 3; 2]%nat [1; 2; 3; 4; 5; 6; 5; 6; 7; 8; 9; 10]%Z) /\
  s_convert (piece_spec x 2 3) [0; 4; 6; 11]%Z = Ok [1; 5; 5; 10]%Z /\
  s_add_to (piece_spec x 2 3) (repeat 0%Z 12) (Arr [2; 3; 2]%nat (map Z.of_nat (seq 1 12)))
    = Ok [0; 1; 2; 3; 4; 12; 14; 9; 10; 11; 12; 0]%Z /\
  s_unpack (xe_spec x) d = Ok (Arr [2; 2]%nat [1; 2; 9; 10]%Z) /\
  s_convert (xe_spec x) [0; 1; 2; 3]%Z = Ok [1; 2; 9; 10]%Z /\
  s_unpack (xm_spec x [1; 3]%nat) d = Ok (Arr [2; 2]%nat [3; 4; 7; 8]%Z) /\
  s_convert (xm_spec x [1; 3]%nat) [0; 1; 2; 3]%Z = Ok [3; 4; 7; 8]%Z.
Proof. vm_compute. repeat split; lia. Qed.

(** ** C06, boundary.  With a single time point the end-point variable reads
    the point twice but accumulates only the second copy, so adjointness
    fails: the condition 2 <= npts of C05_C06_endpoints is needed. *)
Theorem C06_single_point_refuted : exists (n : nat) (c : comp) (off : nat),
  comp_fits n c off /\ c_shape c = [1; 1]%nat /\ ~ adjoint (T := Z) n (xe_spec (dec_spec c)).
Proof. exact single_point. Qed.
Print Assumptions C06_single_point_refuted.

(** ** C07.  The piece-ravelled view: element (k, j) of piece k is row
    k * (ncol - 1) + j of the trajectory ... *)
Theorem C07_piece_rows (T : Type) (NT : Num T) n c off np ncol rest vec :
  comp_fits n c off -> c_shape c = (np * (ncol - 1) + 1)%nat :: rest ->
  (2 <= ncol)%nat -> (1 <= np)%nat -> length vec = n ->
  exists u a, s_unpack (dec_spec c) vec = Ok u /\
    s_unpack (piece_spec (dec_spec c) np ncol) vec = Ok a /\ ash a = np :: ncol :: rest /\ awf a /\
    forall k j q, (k < np)%nat -> (j < ncol)%nat -> (q < prodn rest)%nat ->
      nth ((k * ncol + j) * prodn rest + q) (adat a) n0
      = nth ((k * (ncol - 1) + j) * prodn rest + q) (adat u) n0.
Proof. exact (piece_read n c off np ncol rest vec). Qed.
Print Assumptions C07_piece_rows.

(** ... so consecutive pieces share their end point: the last row of piece k
    equals the first row of piece k + 1. *)
Theorem C07_shared_endpoint (T : Type) (NT : Num T) n c off np ncol rest vec a :
  comp_fits n c off -> c_shape c = (np * (ncol - 1) + 1)%nat :: rest ->
  (2 <= ncol)%nat -> (1 <= np)%nat -> length vec = n ->
  s_unpack (piece_spec (dec_spec c) np ncol) vec = Ok a ->
  forall k q, (k + 1 < np)%nat -> (q < prodn rest)%nat ->
    nth ((k * ncol + (ncol - 1)) * prodn rest + q) (adat a) n0
    = nth (((k + 1) * ncol + 0) * prodn rest + q) (adat a) n0.
Proof. exact (piece_shared n c off np ncol rest vec a). Qed.
Print Assumptions C07_shared_endpoint.

(** End points and measured points, likewise. *)
Theorem C07_endpoint_rows (T : Type) (NT : Num T) n c off npts nx vec :
  comp_fits n c off -> c_shape c = [npts; nx] -> (2 <= npts)%nat -> length vec = n ->
  exists x a, s_unpack (dec_spec c) vec = Ok x /\ s_unpack (xe_spec (dec_spec c)) vec = Ok a /\
    ash a = [2%nat; nx] /\ awf a /\
    forall q, (q < nx)%nat ->
      nth q (adat a) n0 = nth q (adat x) n0 /\
      nth (nx + q) (adat a) n0 = nth ((npts - 1) * nx + q) (adat x) n0.
Proof. exact (xe_read n c off npts nx vec). Qed.
Print Assumptions C07_endpoint_rows.

Theorem C07_measured_rows (T : Type) (NT : Num T) n c off npts nx km vec :
  comp_fits n c off -> c_shape c = [npts; nx] ->
  (forall k, In k km -> (k < npts)%nat) -> NoDup km -> length vec = n ->
  exists x a, s_unpack (dec_spec c) vec = Ok x /\ s_unpack (xm_spec (dec_spec c) km) vec = Ok a /\
    ash a = [length km; nx] /\ awf a /\
    forall m q, (m < length km)%nat -> (q < nx)%nat ->
      nth (m * nx + q) (adat a) n0 = nth (nth m km O * nx + q) (adat x) n0.
Proof. exact (xm_read n c off npts nx km vec). Qed.
Print Assumptions C07_measured_rows.

Example C07_nonvacuous :
  let c := Comp [5; 2]%nat 1 in
  comp_fits 12 c 1 /\ c_shape c = (2 * (3 - 1) + 1)%nat :: [2%nat] /\
  NoDup [1; 3]%nat /\ (forall k, In k [1; 3]%nat -> (k < 5)%nat).
Proof. vm_compute. repeat split; try lia; repeat constructor; simpl; intuition lia. Qed.
