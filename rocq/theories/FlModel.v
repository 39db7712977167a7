(** The parts of the code whose result depends on the rounding of the numbers, with
    the operations of the number type as arguments: the collocation grid (rk.py,
    col.py) and finite differences (utils.py).  [b64_ops] are the operations of NumPy's
    float64: IEEE 754 binary64, rounding to nearest, ties to even, with infinities and
    NaN, from the Flocq library. *)
From Coq Require Import List Bool Arith ZArith Reals.
From Flocq Require Import Core Binary Bits.
From Verif Require Import Py NdArray.
Import ListNotations.

Record fops (T : Type) := FOps {
  fzero : T; fhalf : T;
  fadd : T -> T -> T; fsub : T -> T -> T; fmul : T -> T -> T; fdiv : T -> T -> T;
  fgtb : T -> T -> bool; fmaximum : T -> T -> T }.
Arguments FOps {T}. Arguments fzero {T}. Arguments fhalf {T}. Arguments fadd {T}. Arguments fsub {T}.
Arguments fmul {T}. Arguments fdiv {T}. Arguments fgtb {T}. Arguments fmaximum {T}.

Section Fl.
  Context {T : Type} (o : fops T).

  (** [np.diff(t)]: [t[1:] - t[:-1]] *)
  Definition fl_diff (t : list T) : list T := map (fun ab => fsub o (snd ab) (fst ab)) (combine t (tl t)).

  (** col.py:24-29: [piece_len = np.diff(t)], [assert np.all(piece_len > 0)] *)
  Definition fl_piece_ok (t : list T) : bool := forallb (fun h => fgtb o h (fzero o)) (fl_diff t).

  (** rk.py:87-93, LGLCollocation.grid: [increments = piece_len[:, None] * points[:-1]],
      [np.r_[np.ravel(t_piece[:-1, None] + increments), tf]] *)
  Definition fl_grid (points t : list T) : res (list T) :=
    match t with
    | [] => Err IndexError
    | t0 :: _ =>
        let increments := map (fun l => map (fun q => fmul o l q) (removelast points)) (fl_diff t) in
        Ok (concat (map (fun ti => map (fun d => fadd o (fst ti) d) (snd ti)) (combine (removelast t) increments)) ++ [last t t0])
    end.

  (** utils.py:34 and 75, [h = np.maximum(x*rel_step, min_step)] *)
  Definition fl_steps (x : arr T) (min_step rel_step : T) : list T :=
    map (fun xi => fmaximum o (fmul o xi rel_step) min_step) (adat x).

  (** utils.py:38-41, 80-81: [xplus = x.copy(); xplus[i] += hi], and [-= hi]. *)
  Definition fl_move (op : T -> T -> T) (x : arr T) (i : nat) (d : T) : arr T :=
    Arr (ash x) (map (fun k => if Nat.eqb k i then op (nth k (adat x) (fzero o)) d else nth k (adat x) (fzero o))
                     (seq 0 (length (adat x)))).

  (** utils.py:48, [0.5*(fplus - fminus)/hi] and utils.py:82, [(f(xi) - f0)/hi]; the
      shapes must agree (NumPy would also broadcast). *)
  Definition fl_quotient (post : T -> T) (a b : arr T) (h : T) : res (arr T) :=
    if shape_eqb (ash a) (ash b) then
      Ok (Arr (ash a) (map (fun uv => fdiv o (post (fsub o (fst uv) (snd uv))) h) (combine (adat a) (adat b))))
    else Err ValueError.

  (** utils.py:36-48: the first value gives the shape, the others must have it. *)
  Definition fl_central_row (f : arr T -> arr T) (x : arr T) (h : list T)
      (acc : option (shape * list T)) (i : nat) : res (option (shape * list T)) :=
    let hi := nth i h (fzero o) in
    let fplus := f (fl_move (fadd o) x i hi) in
    let fminus := f (fl_move (fsub o) x i hi) in
    let* row := fl_quotient (fmul o (fhalf o)) fplus fminus hi in
    match acc with
    | None => Ok (Some (ash fplus, adat row))
    | Some (s, l) => if shape_eqb (ash row) s then Ok (Some (s, l ++ adat row)) else Err ValueError
    end.

  (** utils.py:12-50 [central_diff] *)
  Definition fl_central_diff (f : arr T -> arr T) (x : arr T) (min_step rel_step : T) : res (option (arr T)) :=
    let h := fl_steps x min_step rel_step in
    let* acc := foldM (fl_central_row f x h) None (seq 0 (length h)) in
    Ok (match acc with None => None | Some (s, l) => Some (Arr (ash x ++ s) l) end).

  (** utils.py:53-84 [forward_diff] *)
  Definition fl_forward_diff (f : arr T -> arr T) (x : arr T) (min_step rel_step : T) : res (arr T) :=
    let h := fl_steps x min_step rel_step in
    let f0 := f x in
    let* l := foldM (fun l i =>
                 let* row := fl_quotient (fun v => v) (f (fl_move (fadd o) x i (nth i h (fzero o)))) f0 (nth i h (fzero o)) in
                 Ok (l ++ adat row)) [] (seq 0 (length h)) in
    Ok (Arr (ash x ++ ash f0) l).
End Fl.

(** Exact real arithmetic. *)
Definition r_ops : fops R := {|
  fzero := 0; fhalf := 1 / 2; fadd := Rplus; fsub := Rminus; fmul := Rmult; fdiv := Rdiv;
  fgtb := fun a b => if Rlt_dec b a then true else false; fmaximum := Rmax |}%R.

(** binary64.  [a > b] is false when either is NaN; [np.maximum] returns NaN when either is. *)
Definition b64_gtb (a b : binary64) : bool := match b64_compare a b with Some Gt => true | _ => false end.
Definition b64_maximum (a b : binary64) : binary64 :=
  if is_nan 53 1024 a then a else if is_nan 53 1024 b then b else if b64_gtb b a then b else a.
Definition b64_ops : fops binary64 := {|
  fzero := B754_zero 53 1024 false; fhalf := b64_of_bits 0x3FE0000000000000;
  fadd := b64_plus BinarySingleNaN.mode_NE; fsub := b64_minus BinarySingleNaN.mode_NE;
  fmul := b64_mult BinarySingleNaN.mode_NE; fdiv := b64_div BinarySingleNaN.mode_NE;
  fgtb := b64_gtb; fmaximum := b64_maximum |}.

(** The literal [1e-7], default of [min_step] and [rel_step] (utils.py:12, 53). *)
Definition b64_1em7 : binary64 := b64_of_bits 0x3E7AD7F29ABCAF48.
