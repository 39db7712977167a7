(** Generated attribute names (symoptim.py:163-175). *)
From Coq Require Import String Ascii List Bool Arith Lia.
From Verif Require Import Py GenModel SymModel.
Import ListNotations.
Local Open Scope string_scope.

(** *** Specification *)
(** The marker "_d" does not occur in [s]. *)
Definition plain (s : string) : Prop := forall a b, s <> a ++ "_d" ++ b.
(** A Python identifier does not start with a digit. *)
Definition no_digit (s : string) : Prop := forall r, s <> "2" ++ r.

(** The name under which a derivative is stored. *)
Definition deriv_name (f : string) (wrt : list string) : string :=
  match wrt with
  | [w] => first_derivative_name f w
  | [a; b] => second_derivative_name f a b
  | _ => EmptyString
  end.

(** utils.py:138-143 *)
Definition double_deriv_name (f a b : string) : string :=
  if String.eqb a b then "d2" ++ f ++ "_d" ++ a ++ "2" else "d2" ++ f ++ "_d" ++ a ++ "_d" ++ b.

(** *** Strings *)
Lemma sapp_assoc a b c : (a ++ b) ++ c = a ++ (b ++ c).
Proof. induction a; simpl; congruence. Qed.
Lemma sapp_nil_r a : a ++ "" = a.
Proof. induction a; simpl; congruence. Qed.
Lemma sapp_inv_head a b c : a ++ b = a ++ c -> b = c.
Proof. induction a; simpl; auto. intros [= H]; auto. Qed.
Lemma slength_app a b : String.length (a ++ b) = String.length a + String.length b.
Proof. induction a; simpl; auto. Qed.
Lemma sapp_inv_tail a b c : a ++ c = b ++ c -> a = b.
Proof.
  revert b. induction a as [|x a IH]; intros [|y b] H; auto.
  - exfalso. apply (f_equal String.length) in H. simpl in H. rewrite slength_app in H. lia.
  - exfalso. apply (f_equal String.length) in H. simpl in H. rewrite slength_app in H. lia.
  - simpl in H. injection H as -> H. f_equal. auto.
Qed.
Lemma sapp_last a b x y : a ++ String x "" = b ++ String y "" -> a = b /\ x = y.
Proof.
  revert b. induction a as [|c a IH]; intros [|d b] H; simpl in H.
  - injection H. auto.
  - injection H as -> H. destruct b; discriminate.
  - injection H as -> H. destruct a; discriminate.
  - injection H as -> H. apply IH in H as [-> ->]. auto.
Qed.
Lemma snoc_cases s : s = "" \/ exists r x, s = r ++ String x "".
Proof.
  induction s as [|c s IH]; auto. right. destruct IH as [->|(r & x & ->)].
  - exists "", c. reflexivity.
  - exists (String c r), x. reflexivity.
Qed.

(** The last "_d" determines the split. *)
Lemma split_last f f' w w' : plain w -> plain w' -> f ++ "_d" ++ w = f' ++ "_d" ++ w' -> f = f' /\ w = w'.
Proof.
  intros Hw Hw'. revert f'. induction f as [|c f IH]; intros [|c' f'] H.
  - simpl in H. injection H as H. auto.
  - exfalso. simpl in H. injection H as <- H. destruct f' as [|c' f']; simpl in H; [discriminate|].
    injection H as _ H. apply (Hw f' w'). exact H.
  - exfalso. simpl in H. injection H as -> H. destruct f as [|c f]; simpl in H; [discriminate|].
    injection H as _ H. apply (Hw' f w). symmetry. exact H.
  - simpl in H. injection H as -> H. destruct (IH f' H) as [-> ->]. auto.
Qed.

Lemma plain_snoc w x : plain w -> x <> "d"%char -> plain (w ++ String x "").
Proof.
  intros H Hx a b E. destruct (snoc_cases b) as [->|(r & y & ->)].
  - change (w ++ String x "" = a ++ ("_" ++ String "d"%char "")) in E. rewrite <- sapp_assoc in E.
    apply sapp_last in E as [_ E]. auto.
  - change (w ++ String x "" = a ++ (("_d" ++ r) ++ String y "")) in E. rewrite <- sapp_assoc in E.
    apply sapp_last in E as [E _]. now apply (H a r).
Qed.
Lemma plain_2 w : plain w -> plain (w ++ "2").
Proof. intros H. apply plain_snoc; auto. discriminate. Qed.
Lemma plain_val w : plain w -> plain (w ++ "_val").
Proof.
  intros H. change (w ++ "_val") with (w ++ ("_" ++ ("v" ++ ("a" ++ "l")))). rewrite <- !sapp_assoc.
  repeat (apply plain_snoc; [|discriminate]). exact H.
Qed.

Lemma second_split f a b : second_derivative_name f a b
  = if String.eqb a b then "d2" ++ (f ++ "_d" ++ (a ++ "2")) else "d2" ++ ((f ++ "_d" ++ a) ++ "_d" ++ b).
Proof.
  unfold second_derivative_name. destruct (String.eqb a b); [reflexivity|]. now rewrite !sapp_assoc.
Qed.

Lemma second_inj f f' a b a' b' : plain a -> plain b -> plain a' -> plain b' ->
  (f = f' \/ plain f /\ plain f') ->
  second_derivative_name f a b = second_derivative_name f' a' b' -> f = f' /\ a = a' /\ b = b'.
Proof.
  intros Ha Hb Ha' Hb' Hf. rewrite !second_split.
  destruct (String.eqb_spec a b) as [->|Hab]; destruct (String.eqb_spec a' b') as [->|Hab']; intros E; apply sapp_inv_head in E.
  - apply split_last in E as [-> E]; auto using plain_2. apply sapp_inv_tail in E. subst. auto.
  - apply split_last in E as [E _]; auto using plain_2. exfalso. destruct Hf as [->|[P _]].
    + apply (f_equal String.length) in E. rewrite !slength_app in E. simpl in E. lia.
    + now apply (P f' a').
  - apply split_last in E as [E _]; auto using plain_2. exfalso. destruct Hf as [->|[_ P]].
    + apply (f_equal String.length) in E. rewrite !slength_app in E. simpl in E. lia.
    + now apply (P f a).
  - apply split_last in E as [E ->]; auto. apply split_last in E as [-> ->]; auto.
Qed.

Lemma first_inj f f' w w' : plain w -> plain w' ->
  first_derivative_name f w = first_derivative_name f' w' -> f = f' /\ w = w'.
Proof.
  intros H H' E. unfold first_derivative_name in E. apply sapp_inv_head in E. now apply split_last in E.
Qed.

Lemma first_second f f' w a b : plain w -> plain a -> plain b -> (f = f' \/ no_digit f /\ f <> "") ->
  first_derivative_name f w <> second_derivative_name f' a b.
Proof.
  intros Hw Ha Hb Hf E. rewrite second_split in E. unfold first_derivative_name in E.
  assert (exists g, f = "2" ++ f' ++ g) as [g Eg].
  { destruct (String.eqb_spec a b) as [->|Hab].
    - change ("d" ++ (f ++ "_d" ++ w) = "d" ++ (("2" ++ f') ++ "_d" ++ (b ++ "2"))) in E.
      apply sapp_inv_head in E. apply split_last in E as [E _]; auto using plain_2. exists "". now rewrite sapp_nil_r.
    - change ("d" ++ (f ++ "_d" ++ w) = "d" ++ (("2" ++ (f' ++ "_d" ++ a)) ++ "_d" ++ b)) in E.
      apply sapp_inv_head in E. apply split_last in E as [E _]; auto. eexists. exact E. }
  destruct Hf as [->|[H _]].
  - apply (f_equal String.length) in Eg. rewrite !slength_app in Eg. simpl in Eg. lia.
  - apply (H _ Eg).
Qed.

(** Last component of a derivative name. *)
Lemma name_tail f wrt : List.Forall plain wrt -> (List.length wrt = 1 \/ List.length wrt = 2) ->
  exists h w, deriv_name f wrt = h ++ "_d" ++ w /\ plain w /\ (In w wrt \/ exists v, w = v ++ "2").
Proof.
  intros HP HL. destruct wrt as [|a [|b [|c wrt]]]; simpl in HL; try lia.
  - exists ("d" ++ f), a. inversion HP; subst. split; [|split; [auto|left; simpl; auto]].
    unfold deriv_name, first_derivative_name. now rewrite !sapp_assoc.
  - inversion HP as [|x y P1 HP']; subst. inversion HP' as [|x y P2 _]; subst. unfold deriv_name. rewrite second_split.
    destruct (String.eqb_spec a b) as [->|Hab].
    + exists ("d2" ++ f), (b ++ "2"). split; [now rewrite !sapp_assoc|]. split; [now apply plain_2|right; eauto].
    + exists ("d2" ++ (f ++ "_d" ++ a)), b. split; [reflexivity|]. split; [auto|left; simpl; auto].
Qed.
