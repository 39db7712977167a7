(** Model of ceacoest/utils.py (finite differences, option keys, caching,
    concatenation), ceacoest/modelling/symstats.py and
    ceacoest/testsupport/array_cmp.py. *)
From Coq Require Import String Ascii List Bool Arith ZArith Reals.
From Verif Require Import Py NdArray.
Import ListNotations.

(** * Finite differences, over exact real arithmetic *)

(** utils.py:34 and 71 [h = np.maximum(x*rel_step, min_step)]. *)
Definition steps (x : arr R) (min_step rel_step : R) : list R :=
  map (fun xi => Rmax (xi * rel_step) min_step) (adat x).

(** [x] with entry [i] (row-major) moved by [d]: utils.py:38-41, 77-78. *)
Definition bump (x : arr R) (i : nat) (d : R) : arr R :=
  Arr (ash x) (map (fun k => if Nat.eqb k i then (nth k (adat x) 0 + d)%R else nth k (adat x) 0%R)
                   (seq 0 (length (adat x)))).

(** Elementwise difference quotient of two arrays.  Simplified: the shapes
    must agree (NumPy would also broadcast). *)
Definition quotient (a b : arr R) (c h : R) : res (arr R) :=
  if shape_eqb (ash a) (ash b) then
    Ok (Arr (ash a) (map (fun uv => (c * (fst uv - snd uv) / h)%R) (combine (adat a) (adat b))))
  else Err ValueError.

(** [diff[i] = row] into an array created with the shape of the first value:
    utils.py:36-47.  Simplified: rows must have exactly that shape. *)
Definition central_row (f : arr R -> arr R) (x : arr R) (h : list R)
    (acc : option (shape * list R)) (i : nat) : res (option (shape * list R)) :=
  let hi := nth i h 0%R in
  let fplus := f (bump x i hi) in
  let fminus := f (bump x i (- hi)%R) in
  let* row := quotient fplus fminus (1/2)%R hi in
  match acc with
  | None => Ok (Some (ash fplus, adat row))
  | Some (s, l) =>
      if shape_eqb (ash row) s then Ok (Some (s, l ++ adat row)) else Err ValueError
  end.

(** utils.py:13-47 [central_diff]: [None] when [x] has no entries. *)
Definition central_diff (f : arr R -> arr R) (x : arr R) (min_step rel_step : R)
    : res (option (arr R)) :=
  let h := steps x min_step rel_step in
  let* acc := foldM (central_row f x h) None (seq 0 (length h)) in
  Ok (match acc with None => None | Some (s, l) => Some (Arr (ash x ++ s) l) end).

(** utils.py:50-84 [forward_diff]. *)
Definition forward_diff (f : arr R -> arr R) (x : arr R) (min_step rel_step : R)
    : res (arr R) :=
  let h := steps x min_step rel_step in
  let f0 := f x in
  let* l := foldM (fun l i =>
               let* row := quotient (f (bump x i (nth i h 0%R))) f0 1%R (nth i h 0%R) in
               Ok (l ++ adat row)) [] (seq 0 (length h)) in
  Ok (Arr (ash x ++ ash f0) l).

(** * Dictionary keys *)

(** Characters matched by the regular expression [\w], for ASCII text. *)
Definition word_char (c : ascii) : bool :=
  let n := nat_of_ascii c in
  (48 <=? n) && (n <=? 57) || (65 <=? n) && (n <=? 90) || (97 <=? n) && (n <=? 122) || (n =? 95).

(** What [\w+] matches at the start of the text: the longest run. *)
Fixpoint word_run (s : string) : string :=
  match s with
  | EmptyString => EmptyString
  | String c s' => if word_char c then String c (word_run s') else EmptyString
  end.

(** Remove a literal prefix. *)
Fixpoint strip_prefix (p s : string) : option string :=
  match p, s with
  | EmptyString, _ => Some s
  | String a p', String b s' => if Ascii.eqb a b then strip_prefix p' s' else None
  | _, _ => None
  end.

(** utils.py:96-97 [re.match('%s(?P<subkey>\w+)' % base, key)] for a [base]
    without regular-expression operators (all uses in the repository are
    such).  *)
Definition subkey (base key : string) : option string :=
  match strip_prefix base key with
  | Some rest => match word_run rest with EmptyString => None | w => Some w end
  | None => None
  end.

(** utils.py:87-100 [extract_subkeys(d, base)]. *)
Definition extract_subkeys {V} (d : sdict V) (base : string) : sdict V :=
  fold_left (fun acc kv => match subkey base (fst kv) with
                           | Some k => dset String.eqb acc k (snd kv)
                           | None => acc
                           end) d [].

(** * Caching *)

(** [functools.lru_cache()] around a one-argument function, most recently
    used entry first.  The wrapped function may depend on the outside world:
    it also gets the number of calls made to it so far. *)
Section Lru.
  Context {V : Type}.
  Record lru := Lru { l_entries : list (nat * V); l_calls : nat }.
  Definition lru0 : lru := Lru [] 0.

  (** One call of the wrapper (the objects are numbered, [self] hashes by
      identity).  Returns the value and the new cache. *)
  Definition lru_call (maxsize : nat) (f : nat -> nat -> V) (c : lru) (o : nat) : V * lru :=
    match dget Nat.eqb (l_entries c) o with
    | Some v => (v, Lru ((o, v) :: filter (fun kv => negb (Nat.eqb (fst kv) o)) (l_entries c)) (l_calls c))
    | None => let v := f o (l_calls c) in
              (v, Lru (firstn maxsize ((o, v) :: l_entries c)) (S (l_calls c)))
    end.

  (** utils.py:113-118 fallback [cached_property]: a history of attribute
      reads; [maxsize] is 128.  Each read yields its value and whether the
      wrapped function was run. *)
  Fixpoint reads (maxsize : nat) (f : nat -> nat -> V) (c : lru) (os : list nat) : list (nat * V * bool) :=
    match os with
    | [] => []
    | o :: os' => let (v, c') := lru_call maxsize f c o in
                  (o, v, negb (Nat.eqb (l_calls c') (l_calls c))) :: reads maxsize f c' os'
    end.
  Definition property_reads := reads 128.

  (** utils.py:121-135 [cached]: the value is kept in the instance. *)
  Definition cached_call (f : nat -> nat -> V) (c : lru) (o : nat) : V * lru :=
    match dget Nat.eqb (l_entries c) o with
    | Some v => (v, c)
    | None => let v := f o (l_calls c) in (v, Lru ((o, v) :: l_entries c) (S (l_calls c)))
    end.
  Fixpoint cached_reads (f : nat -> nat -> V) (c : lru) (os : list nat) : list (nat * V * bool) :=
    match os with
    | [] => []
    | o :: os' => let (v, c') := cached_call f c o in
                  (o, v, negb (Nat.eqb (l_calls c') (l_calls c))) :: cached_reads f c' os'
    end.
End Lru.
Arguments lru : clear implicits.

(** utils.py:103-110 [flat_cat] of a list of arguments (C order): [np.concatenate] refuses an
    empty sequence. *)
Definition flat_cat {T} (args : list (arr T)) : res (arr T) :=
  match args with
  | [] => Err ValueError
  | _ => let l := flat_map adat args in Ok (Arr [length l] l)
  end.

(** * symstats.py *)

(** A possibly masked scalar: data and mask. *)
Record masked := Masked { m_data : R; m_mask : bool }.

Local Open Scope R_scope.

(** [1.0 * ~getmaskarray(x)]. *)
Definition active_factor (x : masked) : R := if m_mask x then 0 else 1.

(** symstats.py:8-12. *)
Definition normal_logpdf (x : masked) (mean std : R) : R :=
  let logpdf := - (m_data x - mean) ^ 2 / (2 * std ^ 2) - ln std in
  let logpdf := logpdf + - ln (2 * PI) / 2 in
  active_factor x * logpdf.

(** symstats.py:15-18. *)
Definition normal_logpdf1 (x : masked) (mean std : R) : R :=
  let logpdf := - (m_data x - mean) ^ 2 / (2 * std ^ 2) - ln std in
  active_factor x * logpdf.

(** symstats.py:21-24 (no masking). *)
Definition normal_pdf (x mean std : R) : R :=
  let dev := x - mean in
  exp (- (1/2) * (dev / std) ^ 2) / std / sqrt (2 * PI).

(** symstats.py:27-30. *)
Definition normal_pdf1 (x mean std : R) : R :=
  let dev := x - mean in
  exp (- (1/2) * (dev / std) ^ 2) / std.

(** * testsupport/array_cmp.py *)

(** Array elements: finite numbers and NaN (infinities are not modelled). *)
Inductive fl := NaN | Fin (r : R).
Definition fl_sub (a b : fl) : fl := match a, b with Fin x, Fin y => Fin (x - y) | _, _ => NaN end.
Definition fl_abs (a : fl) : fl := match a with Fin x => Fin (Rabs x) | NaN => NaN end.
Definition fl_lt (a b : fl) : bool :=
  match a, b with Fin x, Fin y => if Rlt_dec x y then true else false | _, _ => false end.
(** [atol + rtol * a]. *)
Definition fl_bound (atol rtol : R) (a : fl) : fl :=
  match a with Fin x => Fin (atol + rtol * x) | NaN => NaN end.

(** The common shape of two shapes of equal rank ... *)
Fixpoint bmerge (s t : shape) : option shape :=
  match s, t with
  | [], [] => Some []
  | a :: s', b :: t' =>
      match bmerge s' t' with
      | Some u => if Nat.eqb a b then Some (a :: u)
                  else if Nat.eqb a 1 then Some (b :: u)
                  else if Nat.eqb b 1 then Some (a :: u) else None
      | None => None
      end
  | _, _ => None
  end.
(** ... and [np.broadcast(a, b).shape]; [None] is its ValueError. *)
Definition bshape (s t : shape) : option shape :=
  let n := Nat.max (length s) (length t) in
  bmerge (repeat 1%nat (n - length s) ++ s) (repeat 1%nat (n - length t) ++ t).

(** array_cmp.py:24-46 [within_tol(atol, rtol)], both arguments arrays;
    array_cmp.py:8-13 [broadcastable]. *)
Definition within_tol (a b : arr fl) (atol rtol : R) : bool :=
  match bshape (ash a) (ash b) with
  | None => false
  | Some s =>
      match broadcast_to NaN a s, broadcast_to NaN b s with
      | Ok a', Ok b' =>
          let err := map (fun xy => fl_sub (fst xy) (snd xy)) (combine (adat a') (adat b')) in
          let ok := map (fun ey => fl_lt (fl_abs (fst ey)) (fl_bound atol rtol (fl_abs (snd ey))))
                        (combine err (adat b')) in
          forallb (fun x => x) ok
      | _, _ => false
      end
  end.

(** array_cmp.py:48-54 [ArrayDiff(a, b) < tol]: a number sets both
    tolerances; a dictionary gives them by name, [tol] overriding both. *)
Inductive tolerance := TolNum (t : R) | TolDict (atol rtol tol : option R).
Definition array_lt (a b : arr fl) (t : tolerance) : bool :=
  match t with
  | TolNum x => within_tol a b x x
  | TolDict _ _ (Some x) => within_tol a b x x
  | TolDict at_ rt None =>
      within_tol a b (match at_ with Some x => x | None => 0 end)
                     (match rt with Some x => x | None => 0 end)
  end.
