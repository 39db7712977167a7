(** Model of the functions that the symbolic collocation models derive from
    the user's: the same code as in SymColModel.v, run on expressions
    (modelling/symcol.py, symoc.py, symjme.py). *)
From Coq Require Import String List ZArith Bool Arith Lia Reals Lra.
From Coquelicot Require Import Coquelicot.
From Verif Require Import Py NdArray NdLemmas DictLemmas Expr ExprSym.
Import ListNotations.
Local Open Scope string_scope.
Local Open Scope list_scope.
Local Open Scope R_scope.

(** Substitution of expressions for variables: calling a symbolic function
    with other symbols as arguments. *)
Fixpoint esubst (s : string -> nat -> expr) (e : expr) : expr :=
  match e with
  | Cst c => Cst c
  | Var w i => s w i
  | Add a b => Add (esubst s a) (esubst s b)
  | Mul a b => Mul (esubst s a) (esubst s b)
  | Un u a => Un u (esubst s a)
  end.
Definition esum (l : list expr) : expr := fold_right Add (Cst 0) l.
Definition eneg (a : expr) : expr := Mul (Cst (-1)) a.
Definition esub (a b : expr) : expr := Add a (eneg b).
Definition esq (a : expr) : expr := Mul a a.

Section Builders.
  (** Number of collocation points, of states, inputs and noise components;
      the matrices J, K and JT_range of the collocation. *)
  Variables (n nx nu nw : nat) (J : list (list R)) (K : list R) (JT : list (list R)).

  Definition cmat (A : list (list R)) (i j : nat) : expr := Cst (nth j (nth i A []) 0).

  (** [self.f(xp[i], up[i], p)]: the rows [i] of xp and up for x and u. *)
  Definition at_row (i : nat) (w : string) (j : nat) : expr :=
    if String.eqb w "x" then Var "xp" (i * nx + j) else
    if String.eqb w "u" then Var "up" (i * nu + j) else Var w j.
  Definition at_point (i : nat) (e : expr) : expr := esubst (at_row i) e.

  (** [xp[1:] - xp[:-1] - J @ v * piece_len], row [i] and column [a]; [v j a]
      is the element (j, a) of the second factor. *)
  Definition defect (v : nat -> nat -> expr) (i a : nat) : expr :=
    esub (esub (Var "xp" ((i + 1) * nx + a)) (Var "xp" (i * nx + a)))
         (Mul (esum (map (fun j => Mul (cmat J i j) (v j a)) (seq 0 n))) (Var "piece_len" 0)).
  Definition all_defects (v : nat -> nat -> expr) : list expr :=
    flat_map (fun i => map (defect v i) (seq 0 nx)) (seq 0 (n - 1)).
  (** symcol.py:71-79, Model.e *)
  Definition drift (f : list expr) (j a : nat) : expr := at_point j (nth a f (Cst 0)).
  Definition e_expr (f : list expr) : list expr := all_defects (drift f).

  (** symoc.py:39-46, Model.IL *)
  Definition IL_expr (L : expr) : expr :=
    Mul (esum (map (fun j => Mul (at_point j L) (Cst (nth j K 0))) (seq 0 n))) (Var "piece_len" 0).

  (** symjme.py:51 and 66, [wp = JT_range @ wc] *)
  Definition wp (j i : nat) : expr := esum (map (fun a => Mul (cmat JT j a) (Var "wc" (a * nw + i))) (seq 0 (n - 1))).
  (** symjme.py:46-54, Model.e: [fp + wp @ G.T] *)
  Definition noisy (f : list expr) (j a : nat) : expr :=
    Add (drift f j a) (esum (map (fun l => Mul (wp j l) (Var "G" (a * nw + l))) (seq 0 nw))).
  Definition jme_e_expr (f : list expr) : list expr := all_defects (noisy f).
  (** symjme.py:56-59, Model.penalty *)
  Definition penalty_expr (f : list expr) : expr :=
    esum (map (fun i => esum (map (fun a => Mul (eneg (esq (defect (noisy f) i a))) (Var "penweight" a)) (seq 0 nx))) (seq 0 (n - 1))).
  (** symjme.py:61-76, Model.tube_L; [df_dx] (line 31) is the derivative of
      the user's f, taken before the rows of xp and up are substituted. *)
  Definition tail_rows : list nat := seq (if Nat.eqb nw 0 then 0 else nx - nw) (nx - (if Nat.eqb nw 0 then 0 else nx - nw)).
  Definition drift_div_expr (f : list expr) (j : nat) : expr :=
    esum (map (fun k => at_point j (dif "x" k (nth k f (Cst 0)))) tail_rows).
  Definition tube_expr (om : bool) (f : list expr) : expr :=
    Mul (esum (map (fun j => Mul (Mul (Cst (-1/2)) (Add (if om then drift_div_expr f j else Cst 0)
                                                       (esum (map (fun i => esq (wp j i)) (seq 0 nw)))))
                                 (Cst (nth j K 0))) (seq 0 n)))
        (Var "piece_len" 0).
End Builders.

(** *** Values *)
Lemma eval_esubst v s e : eval v (esubst s e) = eval (fun w i => eval v (s w i)) e.
Proof. induction e; cbn; rewrite ?IHe, ?IHe1, ?IHe2; reflexivity. Qed.
Lemma dom_esubst v s e : (forall w i, dom v (s w i)) -> dom (fun w i => eval v (s w i)) e -> dom v (esubst s e).
Proof. intros H. induction e; cbn; auto; try tauto. rewrite eval_esubst. tauto. Qed.
Lemma scoped_esubst size args size' args' s e : (forall w i, In w args -> (i < size w)%nat -> scoped size' args' (s w i)) ->
  scoped size args e -> scoped size' args' (esubst s e).
Proof. intros H. induction e; cbn; auto; try tauto. intros []. auto. Qed.
Lemma eval_esum v l : eval v (esum l) = fold_right Rplus 0 (map (eval v) l).
Proof. unfold esum. induction l as [|a l IH]; [reflexivity|]. cbn. now rewrite IH. Qed.
Lemma dom_esum v l : List.Forall (dom v) l -> dom v (esum l).
Proof. induction 1; cbn; auto. Qed.
Lemma scoped_esum size args l : List.Forall (scoped size args) l -> scoped size args (esum l).
Proof. induction 1; cbn; auto. Qed.
Lemma Forall_map_seq {X} (P : X -> Prop) (g : nat -> X) s k : (forall i, (s <= i < s + k)%nat -> P (g i)) -> List.Forall P (map g (seq s k)).
Proof. intros H. apply List.Forall_forall. intros x Hx. apply in_map_iff in Hx as (i & <- & Hi). apply in_seq in Hi. auto. Qed.

Section BuilderFacts.
  Variables (n nx nu nw : nat) (J : list (list R)) (K : list R) (JT : list (list R)).
  Notation at_row := (at_row nx nu).
  Notation at_point := (at_point nx nu).
  (** Sizes of the variables. *)
  Variable size : string -> nat.
  Hypothesis Sx : size "x" = nx.
  Hypothesis Su : size "u" = nu.
  Hypothesis Sxp : size "xp" = (n * nx)%nat.
  Hypothesis Sup : size "up" = (n * nu)%nat.
  Hypothesis Slen : size "piece_len" = 1%nat.
  Hypothesis n1 : (1 <= n)%nat.

  Section Args.
  Variable args : list string.
  Hypothesis HA : incl ["xp"; "up"; "p"; "piece_len"] args.

  Lemma scoped_at_point i e : (i < n)%nat -> scoped size ["x"; "u"; "p"] e -> scoped size args (at_point i e).
  Proof.
    intros Hi. apply scoped_esubst. intros w j Hw Hj. cbn in Hw. unfold ExprModel.at_row.
    destruct Hw as [<-|[<-|[<-|[]]]]; cbn; (split; [apply HA; cbn; auto|]).
    - rewrite Sx in Hj. rewrite Sxp. nia.
    - rewrite Su in Hj. rewrite Sup. nia.
    - exact Hj.
  Qed.
  Lemma scoped_nth l a : List.Forall (scoped size ["x"; "u"; "p"]) l -> scoped size ["x"; "u"; "p"] (nth a l (Cst 0)).
  Proof. intros H. destruct (Nat.lt_ge_cases a (length l)); [now apply List.Forall_nth|rewrite nth_overflow by auto; exact I]. Qed.
  Lemma scoped_drift f j a : List.Forall (scoped size ["x"; "u"; "p"]) f -> (j < n)%nat -> scoped size args (drift nx nu f j a).
  Proof. intros Hf Hj. apply scoped_at_point; auto. now apply scoped_nth. Qed.
  Lemma scoped_defect v i a : (i < n - 1)%nat -> (a < nx)%nat -> (forall j, (j < n)%nat -> scoped size args (v j a)) ->
    scoped size args (defect n nx J v i a).
  Proof.
    intros Hi Ha Hv. unfold defect, esub, eneg. cbn. rewrite Sxp, Slen.
    assert (In "xp" args /\ In "piece_len" args) as [] by (split; apply HA; cbn; auto).
    assert ((i + 1) * nx + a < n * nx)%nat by (assert ((i + 1) * nx + nx <= n * nx)%nat by nia; lia).
    assert (i * nx + a < n * nx)%nat by nia.
    repeat split; auto. apply scoped_esum, Forall_map_seq. intros j Hj. cbn. split; auto. apply Hv. lia.
  Qed.
  Lemma scoped_defects v : (forall j a, (j < n)%nat -> (a < nx)%nat -> scoped size args (v j a)) ->
    List.Forall (scoped size args) (all_defects n nx J v).
  Proof.
    intros Hv. apply List.Forall_forall. intros e He. apply in_flat_map in He as (i & Hi & He). apply in_map_iff in He as (a & <- & Ha).
    apply in_seq in Hi, Ha. apply scoped_defect; auto; try lia. intros. apply Hv; lia.
  Qed.
  Lemma length_defects v : length (all_defects n nx J v) = ((n - 1) * nx)%nat.
  Proof. unfold all_defects. apply length_flat_seq. intros. now rewrite map_length, seq_length. Qed.
  Lemma scoped_IL L : scoped size ["x"; "u"; "p"] L -> scoped size args (IL_expr n nx nu K L).
  Proof.
    intros HL. cbn. rewrite Slen. assert (In "piece_len" args) by (apply HA; cbn; auto). repeat split; auto.
    apply scoped_esum, Forall_map_seq. intros j Hj. cbn. split; auto. apply scoped_at_point; auto. lia.
  Qed.

  (** The noise variables of a joint MAP model. *)
  Section Noise.
  Hypothesis Swc : size "wc" = ((n - 1) * nw)%nat.
  Hypothesis Hwc : In "wc" args.
  Lemma scoped_wp j i : (i < nw)%nat -> scoped size args (wp n nw JT j i).
  Proof.
    intros Hi. apply scoped_esum, Forall_map_seq. intros a Ha. cbn. repeat split; auto. rewrite Swc. nia.
  Qed.
  Lemma scoped_noisy f j a : size "G" = (nx * nw)%nat -> In "G" args -> List.Forall (scoped size ["x"; "u"; "p"]) f -> (j < n)%nat -> (a < nx)%nat ->
    scoped size args (noisy n nx nu nw JT f j a).
  Proof.
    intros SG HG Hf Hj Ha. cbn. split; [now apply scoped_drift|]. apply scoped_esum, Forall_map_seq. intros l Hl. cbn. repeat split; auto.
    - apply scoped_wp. lia.
    - rewrite SG. nia.
  Qed.
  Lemma scoped_penalty f : size "G" = (nx * nw)%nat -> In "G" args -> size "penweight" = nx -> In "penweight" args ->
    List.Forall (scoped size ["x"; "u"; "p"]) f -> scoped size args (penalty_expr n nx nu nw J JT f).
  Proof.
    intros SG HG SP HP Hf. apply scoped_esum, Forall_map_seq. intros i Hi. apply scoped_esum, Forall_map_seq. intros a Ha.
    assert (scoped size args (defect n nx J (noisy n nx nu nw JT f) i a)) by (apply scoped_defect; try lia; intros; apply scoped_noisy; auto; lia).
    cbn. rewrite SP. repeat split; auto; lia || apply H.
  Qed.
  Lemma scoped_tube om f : List.Forall (scoped size ["x"; "u"; "p"]) f -> scoped size args (tube_expr n nx nu nw K JT om f).
  Proof.
    intros Hf. cbn. rewrite Slen. assert (In "piece_len" args) by (apply HA; cbn; auto). repeat split; auto.
    apply scoped_esum, Forall_map_seq. intros j Hj. cbn. repeat split.
    - destruct om; [|exact I]. apply scoped_esum, Forall_map_seq. intros k _. apply scoped_at_point; [lia|]. apply scoped_ddir. now apply scoped_nth.
    - apply scoped_esum, Forall_map_seq. intros i Hi. split; apply scoped_wp; lia.
  Qed.
  End Noise.

  End Args.
End BuilderFacts.

(** *** Domains *)
Section BuilderDomains.
  Variables (n nx nu nw : nat) (J : list (list R)) (K : list R) (JT : list (list R)).
  Notation at_row := (at_row nx nu).
  Notation at_point := (at_point nx nu).
  Variable v : env.
  Notation point j := (fun w i => eval v (at_row j w i)).
  Lemma dom_at_point j e : dom (point j) e -> dom v (at_point j e).
  Proof.
    intros H. apply dom_esubst; auto. intros w i. unfold ExprModel.at_row. repeat (destruct (String.eqb _ _); try exact I).
  Qed.
  Lemma dom_nth l a w : List.Forall (dom w) l -> dom w (nth a l (Cst 0)).
  Proof. intros H. destruct (Nat.lt_ge_cases a (length l)); [now apply List.Forall_nth|rewrite nth_overflow by auto; exact I]. Qed.
  Lemma dom_drift f j a : List.Forall (dom (point j)) f -> dom v (drift nx nu f j a).
  Proof. intros Hf. apply dom_at_point. now apply dom_nth. Qed.
  Lemma dom_defect u i a : (forall j, (j < n)%nat -> dom v (u j a)) -> dom v (defect n nx J u i a).
  Proof. intros Hu. cbn. repeat split; auto. apply dom_esum, Forall_map_seq. intros j Hj. cbn. split; auto. apply Hu. lia. Qed.
  Lemma dom_defects u : (forall j a, (j < n)%nat -> dom v (u j a)) -> List.Forall (dom v) (all_defects n nx J u).
  Proof.
    intros Hu. apply List.Forall_forall. intros e He. apply in_flat_map in He as (i & Hi & He). apply in_map_iff in He as (a & <- & Ha).
    apply dom_defect. auto.
  Qed.
  Lemma dom_IL L : (forall j, (j < n)%nat -> dom (point j) L) -> dom v (IL_expr n nx nu K L).
  Proof. intros HL. cbn. split; auto. apply dom_esum, Forall_map_seq. intros j Hj. cbn. split; auto. apply dom_at_point, HL. lia. Qed.
  Lemma dom_wp j i : dom v (wp n nw JT j i).
  Proof. apply dom_esum, Forall_map_seq. intros. cbn. auto. Qed.
  Lemma dom_noisy f j a : List.Forall (dom (point j)) f -> dom v (noisy n nx nu nw JT f j a).
  Proof. intros Hf. cbn. split; [now apply dom_drift|]. apply dom_esum, Forall_map_seq. intros. cbn. split; auto. apply dom_wp. Qed.
  Lemma dom_penalty f : (forall j, (j < n)%nat -> List.Forall (dom (point j)) f) -> dom v (penalty_expr n nx nu nw J JT f).
  Proof.
    intros Hf. apply dom_esum, Forall_map_seq. intros i _. apply dom_esum, Forall_map_seq. intros a _.
    assert (dom v (defect n nx J (noisy n nx nu nw JT f) i a)) by (apply dom_defect; intros; apply dom_noisy; auto).
    cbn. repeat split; auto; apply H.
  Qed.
  Lemma dom_tube om f : (forall j, (j < n)%nat -> List.Forall (dom (point j)) f) -> dom v (tube_expr n nx nu nw K JT om f).
  Proof.
    intros Hf. cbn. split; auto. apply dom_esum, Forall_map_seq. intros j Hj. cbn. repeat split.
    - destruct om; [|exact I]. apply dom_esum, Forall_map_seq. intros k _. apply dom_at_point. apply dom_ddir. apply dom_nth. apply Hf. lia.
    - apply dom_esum, Forall_map_seq. intros i Hi. split; apply dom_wp.
  Qed.
End BuilderDomains.
