(** Lemmas on the names of elements. *)
From Coq Require Import String Ascii List ZArith Bool Arith Lia DecimalString DecimalNat Reals.
Require Import Verif.Py Verif.DictLemmas Verif.ElemModel.
Import ListNotations.
Local Open Scope string_scope.

(** *** Strings from the right *)
Definition rl (s : string) : list ascii := rev (list_ascii_of_string s).
Lemma la_app s t : list_ascii_of_string (s ++ t) = (list_ascii_of_string s ++ list_ascii_of_string t)%list.
Proof. induction s; cbn; congruence. Qed.
Lemma rl_app s t : rl (s ++ t) = (rl t ++ rl s)%list.
Proof. unfold rl. now rewrite la_app, rev_app_distr. Qed.
Lemma rl_inj s t : rl s = rl t -> s = t.
Proof.
  intros H. apply (f_equal (@rev ascii)) in H. unfold rl in H. rewrite !rev_involutive in H.
  rewrite <- (string_of_list_ascii_of_string s), <- (string_of_list_ascii_of_string t). now rewrite H.
Qed.
Definition digit (c : ascii) : bool := let n := nat_of_ascii c in (Nat.leb 48 n && Nat.leb n 57)%bool.
Lemma digits_uint d : Forall (fun c => digit c = true) (list_ascii_of_string (NilEmpty.string_of_uint d)).
Proof. induction d; cbn; constructor; auto. Qed.
Lemma digits_decimal k : Forall (fun c => digit c = true) (rl (decimal k)).
Proof. apply Forall_rev, digits_uint. Qed.
Lemma decimal_inj k k' : decimal k = decimal k' -> k = k'.
Proof.
  intros H. apply Unsigned.to_uint_inj. apply (f_equal NilEmpty.uint_of_string) in H.
  unfold decimal in H. rewrite !NilEmpty.usu in H. congruence.
Qed.

(** The digits at the end and what precedes them. *)
Fixpoint taked (l : list ascii) : list ascii :=
  match l with [] => [] | c :: l => if digit c then c :: taked l else [] end.
Fixpoint dropd (l : list ascii) : list ascii :=
  match l with [] => [] | c :: l' => if digit c then dropd l' else l end.
Lemma taked_app l c r : Forall (fun c => digit c = true) l -> digit c = false -> taked (l ++ c :: r) = l.
Proof. induction 1; cbn; intros Hc; [now rewrite Hc|]. rewrite H. f_equal. auto. Qed.
Lemma dropd_app l c r : Forall (fun c => digit c = true) l -> digit c = false -> dropd (l ++ c :: r) = c :: r.
Proof. induction 1; cbn; intros Hc; [now rewrite Hc|]. rewrite H. auto. Qed.
Lemma tail_split p k : (forall l, exists c r, digit c = false /\ (rl p ++ l)%list = c :: r) -> forall l,
  taked (rl (decimal k) ++ rl p ++ l) = rl (decimal k) /\ dropd (rl (decimal k) ++ rl p ++ l) = (rl p ++ l)%list.
Proof.
  intros H l. destruct (H l) as (c & r & Hc & ->). split; [apply taked_app|apply dropd_app]; auto using digits_decimal.
Qed.

Lemma taked_piece n k : taked (rl (piece_name n k)) = rl (decimal k).
Proof. unfold piece_name. rewrite !rl_app, <- app_assoc. apply tail_split. intros l. now do 2 eexists. Qed.
Lemma dropd_piece n k : dropd (rl (piece_name n k)) = (rl "_piece_" ++ rl n)%list.
Proof. unfold piece_name. rewrite !rl_app, <- app_assoc. apply tail_split. intros l. now do 2 eexists. Qed.
Lemma taked_wc j i : taked (rl (wc_name j i)) = rl (decimal i).
Proof. unfold wc_name. rewrite !rl_app, <- !app_assoc. apply tail_split. intros l. now do 2 eexists. Qed.
Lemma dropd_wc j i : dropd (rl (wc_name j i)) = (rl "_interv_" ++ rl (decimal j) ++ rl "wc")%list.
Proof. unfold wc_name. rewrite !rl_app, <- !app_assoc. apply tail_split. intros l. now do 2 eexists. Qed.
Lemma taked_pen i : taked (rl (penweight_name i)) = rl (decimal i).
Proof. unfold penweight_name. rewrite rl_app, <- (app_nil_r (rl "penweight")). apply tail_split. intros l. now do 2 eexists. Qed.
Lemma dropd_pen i : dropd (rl (penweight_name i)) = rl "penweight".
Proof.
  assert (H : forall l, exists c r, digit c = false /\ (rl "penweight" ++ l)%list = c :: r) by (intros l; now do 2 eexists).
  unfold penweight_name. rewrite rl_app, <- (app_nil_r (rl "penweight")). now rewrite (proj2 (tail_split "penweight" i H [])).
Qed.
Lemma dropd_initial n : dropd (rl (initial_name n)) = (rl "_initial" ++ rl n)%list.
Proof. unfold initial_name. now rewrite rl_app. Qed.
Lemma dropd_final n : dropd (rl (final_name n)) = (rl "_final" ++ rl n)%list.
Proof. unfold final_name. now rewrite rl_app. Qed.

Lemma piece_name_inj n k n' k' : piece_name n k = piece_name n' k' -> n = n' /\ k = k'.
Proof.
  intros H. apply (f_equal rl) in H. pose proof (f_equal taked H) as Ht. pose proof (f_equal dropd H) as Hd.
  rewrite !taked_piece in Ht. rewrite !dropd_piece in Hd. apply rl_inj, decimal_inj in Ht. apply app_inv_head, rl_inj in Hd. auto.
Qed.
Lemma wc_name_inj j i j' i' : wc_name j i = wc_name j' i' -> j = j' /\ i = i'.
Proof.
  intros H. apply (f_equal rl) in H. pose proof (f_equal taked H) as Ht. pose proof (f_equal dropd H) as Hd.
  rewrite !taked_wc in Ht. rewrite !dropd_wc in Hd. apply rl_inj, decimal_inj in Ht. apply app_inv_head in Hd.
  apply app_inv_tail, rl_inj, decimal_inj in Hd. auto.
Qed.
Lemma penweight_name_inj i i' : penweight_name i = penweight_name i' -> i = i'.
Proof. intros H. apply (f_equal rl), (f_equal taked) in H. rewrite !taked_pen in H. now apply rl_inj, decimal_inj in H. Qed.
Lemma initial_name_inj n n' : initial_name n = initial_name n' -> n = n'.
Proof. intros H. apply (f_equal rl), (f_equal dropd) in H. rewrite !dropd_initial in H. now apply app_inv_head, rl_inj in H. Qed.
Lemma final_name_inj n n' : final_name n = final_name n' -> n = n'.
Proof. intros H. apply (f_equal rl), (f_equal dropd) in H. rewrite !dropd_final in H. now apply app_inv_head, rl_inj in H. Qed.

Ltac forms := let H := fresh in intros H; apply (f_equal rl), (f_equal dropd) in H;
  rewrite ?dropd_piece, ?dropd_wc, ?dropd_pen, ?dropd_initial, ?dropd_final in H; discriminate H.
Lemma piece_wc n k j i : piece_name n k <> wc_name j i. Proof. forms. Qed.
Lemma piece_pen n k i : piece_name n k <> penweight_name i. Proof. forms. Qed.
Lemma piece_initial n k n' : piece_name n k <> initial_name n'. Proof. forms. Qed.
Lemma piece_final n k n' : piece_name n k <> final_name n'. Proof. forms. Qed.
Lemma wc_pen j i i' : wc_name j i <> penweight_name i'. Proof. forms. Qed.
Lemma initial_final n n' : initial_name n <> final_name n'. Proof. forms. Qed.

(** *** Lists of names *)
Lemma NoDup_app_intro {A} (l m : list A) : NoDup l -> NoDup m -> (forall a, In a l -> ~ In a m) -> NoDup (l ++ m).
Proof.
  induction 1; cbn; intros Hm Hd; auto. constructor; [|apply IHNoDup; auto].
  rewrite in_app_iff. intros [?|?]; [auto|]. now apply (Hd x); auto.
Qed.
Lemma NoDup_map_on {A B} (f : A -> B) l : (forall a b, In a l -> In b l -> f a = f b -> a = b) -> NoDup l -> NoDup (map f l).
Proof.
  induction l; cbn; intros Hf; inversion_clear 1; constructor; auto.
  intros H. apply in_map_iff in H as (b & E & Hb). apply Hf in E; auto. now subst.
Qed.
Lemma NoDup_flat {A B} (f : A -> list B) l : NoDup l -> (forall a, In a l -> NoDup (f a)) ->
  (forall a a' b, In b (f a) -> In b (f a') -> a = a') -> NoDup (flat_map f l).
Proof.
  induction 1; cbn; intros Hf Hd; [constructor|]. apply NoDup_app_intro; auto.
  intros b Hb H'. apply in_flat_map in H' as (a & Ha & Hb'). rewrite (Hd _ _ _ Hb Hb') in H. auto.
Qed.
Lemma In_piece_names ncol l s : In s (piece_names ncol l) <-> exists n k, In n l /\ k < ncol /\ s = piece_name n k.
Proof.
  unfold piece_names. rewrite in_flat_map. split.
  - intros (k & Hk & H). apply in_seq in Hk. apply in_map_iff in H as (n & <- & Hn). exists n, k. repeat split; auto; lia.
  - intros (n & k & Hn & Hk & ->). exists k. split; [apply in_seq; lia|]. apply in_map_iff. eauto.
Qed.
Lemma In_end_names x s : In s (end_names x) <-> exists n, In n x /\ (s = initial_name n \/ s = final_name n).
Proof.
  unfold end_names. rewrite in_app_iff, !in_map_iff. split.
  - intros [(n & <- & H)|(n & <- & H)]; eauto.
  - intros (n & H & [->| ->]); eauto.
Qed.
Lemma In_wc_names nw ni s : In s (wc_names nw ni) <-> exists j i, j < nw /\ i < ni /\ s = wc_name j i.
Proof.
  unfold wc_names. rewrite in_flat_map. split.
  - intros (i & Hi & H). apply in_seq in Hi. apply in_map_iff in H as (j & <- & Hj). apply in_seq in Hj. exists j, i. repeat split; auto; lia.
  - intros (j & i & Hj & Hi & ->). exists i. split; [apply in_seq; lia|]. apply in_map_iff. exists j. split; auto. apply in_seq; lia.
Qed.
Lemma In_penweight_names nx s : In s (penweight_names nx) <-> exists i, i < nx /\ s = penweight_name i.
Proof.
  unfold penweight_names. rewrite in_map_iff. split.
  - intros (i & <- & H). apply in_seq in H. exists i. split; auto; lia.
  - intros (i & H & ->). exists i. split; auto. apply in_seq; lia.
Qed.
Lemma NoDup_piece_names ncol l : NoDup l -> NoDup (piece_names ncol l).
Proof.
  intros H. apply NoDup_flat; [apply seq_NoDup| |].
  - intros k _. apply NoDup_map_on; auto. intros a b _ _ E. now apply piece_name_inj in E.
  - intros k k' s Hs Hs'. apply in_map_iff in Hs as (n & <- & _). apply in_map_iff in Hs' as (n' & E & _). now apply piece_name_inj in E.
Qed.
Lemma NoDup_end_names x : NoDup x -> NoDup (end_names x).
Proof.
  intros H. apply NoDup_app_intro.
  - apply NoDup_map_on; auto. intros a b _ _. apply initial_name_inj.
  - apply NoDup_map_on; auto. intros a b _ _. apply final_name_inj.
  - intros s Hs Hs'. apply in_map_iff in Hs as (n & <- & _). apply in_map_iff in Hs' as (n' & E & _). now apply (initial_final n n').
Qed.
Lemma NoDup_wc_names nw ni : NoDup (wc_names nw ni).
Proof.
  apply NoDup_flat; [apply seq_NoDup| |].
  - intros i _. apply NoDup_map_on; [|apply seq_NoDup]. intros a b _ _ E. now apply wc_name_inj in E.
  - intros i i' s Hs Hs'. apply in_map_iff in Hs as (n & <- & _). apply in_map_iff in Hs' as (n' & E & _). now apply wc_name_inj in E.
Qed.
Lemma NoDup_penweight_names nx : NoDup (penweight_names nx).
Proof. apply NoDup_map_on; [|apply seq_NoDup]. intros a b _ _. apply penweight_name_inj. Qed.
Lemma piece_names_length ncol l : length (piece_names ncol l) = ncol * length l.
Proof.
  unfold piece_names. generalize 0 at 1 as s. induction ncol; intros s; [reflexivity|]. cbn [seq flat_map]. rewrite app_length, map_length, IHncol. lia.
Qed.

(** *** Dictionaries *)
Lemma dget_setdefault d k v w : dget String.eqb (setdefault d k v) w =
  match dget String.eqb d w with Some a => Some a | None => if String.eqb w k then Some v else None end.
Proof.
  unfold setdefault, dmem. destruct (dget String.eqb d k) eqn:E.
  - destruct (dget String.eqb d w) eqn:E'; auto. destruct (String.eqb_spec w k); auto. congruence.
  - rewrite (dget_dset _ String.eqb_spec). destruct (String.eqb_spec w k) as [->|]; [now rewrite E|]. now destruct (dget String.eqb d w).
Qed.
