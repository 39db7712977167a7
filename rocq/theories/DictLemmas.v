(** Dictionary lemmas. *)
From Coq Require Import String List ZArith Bool Arith Lia.
From Verif Require Import Py.
Import ListNotations.

Section Dict.
  Context {K V : Type} (eqb : K -> K -> bool).
  Hypothesis eqb_spec : forall a b, reflect (a = b) (eqb a b).

  Lemma dget_dset (d : list (K * V)) k v k' :
    dget eqb (dset eqb d k v) k' = if eqb k' k then Some v else dget eqb d k'.
  Proof.
    induction d as [|[k0 v0] d IH]; simpl; auto.
    destruct (eqb_spec k k0); simpl.
    - subst. destruct (eqb_spec k' k0); auto.
    - rewrite IH. destruct (eqb_spec k' k0), (eqb_spec k' k); subst; auto. congruence.
  Qed.

  Lemma dget_None (d : list (K * V)) k : dget eqb d k = None <-> ~ In k (map fst d).
  Proof.
    induction d as [|[k0 v0] d IH]; simpl; [tauto|].
    destruct (eqb_spec k k0); subst.
    - split; [discriminate|tauto].
    - rewrite IH. split; intros H; [intros [?|?]; congruence || tauto|tauto].
  Qed.

  Lemma dget_In (d : list (K * V)) k v : dget eqb d k = Some v -> In (k, v) d.
  Proof.
    induction d as [|[k0 v0] d IH]; simpl; [discriminate|].
    destruct (eqb_spec k k0); subst; [intros [= ->]|]; auto.
  Qed.

  Lemma In_dget (d : list (K * V)) k v : NoDup (map fst d) -> In (k, v) d -> dget eqb d k = Some v.
  Proof.
    induction d as [|[k0 v0] d IH]; simpl; [tauto|]. intros Hn [E|H].
    - injection E as <- <-. now destruct (eqb_spec k0 k0).
    - inversion Hn; subst. destruct (eqb_spec k k0); subst; auto.
      exfalso. apply H2. apply in_map_iff. exists (k0, v); auto.
  Qed.

  Lemma dset_fresh (d : list (K * V)) k v : ~ In k (map fst d) -> dset eqb d k v = d ++ [(k, v)].
  Proof.
    induction d as [|[k0 v0] d IH]; simpl; auto. intros H.
    destruct (eqb_spec k k0); [subst; tauto|]. rewrite IH; auto.
  Qed.

  Lemma dmem_In (d : list (K * V)) k : dmem eqb d k = true <-> In k (map fst d).
  Proof.
    unfold dmem. destruct (dget eqb d k) as [v|] eqn:E.
    - apply dget_In in E. split; auto. intros _. apply in_map_iff. exists (k, v); auto.
    - rewrite dget_None in E. split; [discriminate|tauto].
  Qed.

  Lemma dmerge_fresh (d1 d2 : list (K * V)) :
    NoDup (map fst (d1 ++ d2)) -> dmerge eqb d1 d2 = d1 ++ d2.
  Proof.
    unfold dmerge. revert d1; induction d2 as [|[k v] d2 IH]; simpl; intros d1 H.
    - now rewrite app_nil_r.
    - assert (NoDup (map fst ((d1 ++ [(k, v)]) ++ d2))) as H' by now rewrite <- app_assoc.
      rewrite dset_fresh.
      + rewrite IH; auto. now rewrite <- app_assoc.
      + rewrite map_app in H. simpl in H. apply NoDup_remove_2 in H.
        rewrite in_app_iff in H. tauto.
  Qed.

  Lemma dmake_NoDup (l : list (K * V)) : NoDup (map fst l) -> dmake eqb l = l.
  Proof. intros H. unfold dmake. now rewrite dmerge_fresh. Qed.

  Lemma dget_dmerge (d1 d2 : list (K * V)) k :
    dget eqb (dmerge eqb d1 d2) k
    = match dget eqb (rev d2) k with Some v => Some v | None => dget eqb d1 k end.
  Proof.
    unfold dmerge. revert d1; induction d2 as [|[k' v'] d2 IH]; simpl; intros d1; auto.
    rewrite IH, dget_dset.
    assert (forall l, dget eqb (l ++ [(k', v')]) k =
              match dget eqb l k with Some v => Some v | None => if eqb k k' then Some v' else None end) as A.
    { induction l as [|[a b] l IHl]; simpl; auto. destruct (eqb k a); auto. }
    rewrite A. destruct (dget eqb (rev d2) k); auto. destruct (eqb k k'); auto.
  Qed.

  Lemma dget_rev (d : list (K * V)) k : NoDup (map fst d) -> dget eqb (rev d) k = dget eqb d k.
  Proof.
    intros H. destruct (dget eqb d k) as [v|] eqn:E.
    - apply In_dget; [|apply in_rev; rewrite rev_involutive; now apply dget_In].
      rewrite map_rev. now apply NoDup_rev.
    - rewrite dget_None in *. now rewrite map_rev, <- in_rev.
  Qed.

  Lemma dget_app (d1 d2 : list (K * V)) k :
    dget eqb (d1 ++ d2) k = match dget eqb d1 k with Some v => Some v | None => dget eqb d2 k end.
  Proof. induction d1 as [|[a b] d1 IH]; simpl; auto. destruct (eqb k a); auto. Qed.
End Dict.

Lemma tkey_eqb_spec a b : reflect (a = b) (tkey_eqb a b).
Proof.
  revert b; induction a as [|x a IH]; intros [|y b]; simpl; try (constructor; congruence).
  destruct (String.eqb_spec x y); simpl; [|constructor; congruence].
  destruct (IH b); constructor; congruence.
Qed.

Lemma dget_map {V W} (f : V -> W) (d : sdict V) k :
  dget String.eqb (map (fun kv => (fst kv, f (snd kv))) d) k
  = option_map f (dget String.eqb d k).
Proof.
  induction d as [|[k0 v0] d IH]; simpl; auto. destruct (String.eqb k k0); auto.
Qed.

Lemma map_fst_map {K V W} (f : K * V -> W) (d : list (K * V)) :
  map fst (map (fun kv => (fst kv, f kv)) d) = map fst d.
Proof. rewrite map_map. apply map_ext. auto. Qed.

(** [mapM] and [foldM] *)
Lemma mapM_length {A B} (f : A -> res B) l bs : mapM f l = Ok bs -> length bs = length l.
Proof.
  revert bs; induction l as [|a l IH]; simpl; intros bs H.
  - now injection H as <-.
  - destruct (f a); simpl in H; [|discriminate]. destruct (mapM f l) as [bs1|]; simpl in H; [|discriminate].
    injection H as <-. simpl. now rewrite (IH bs1).
Qed.

Lemma mapM_Ok_all {A B} (f : A -> res B) (g : A -> B) l :
  (forall a, In a l -> f a = Ok (g a)) -> mapM f l = Ok (map g l).
Proof.
  induction l as [|a l IH]; simpl; intros H; auto.
  rewrite H by auto. simpl. now rewrite IH by auto.
Qed.

Lemma foldM_app {A B} (f : A -> B -> res A) acc l1 l2 :
  foldM f acc (l1 ++ l2) = let* a := foldM f acc l1 in foldM f a l2.
Proof.
  revert acc; induction l1 as [|b l1 IH]; simpl; intros acc; auto.
  destruct (f acc b); simpl; auto.
Qed.

Lemma map_fst_combine {A B} (l : list A) (m : list B) : length m = length l -> map fst (combine l m) = l.
Proof.
  revert m; induction l as [|a l IH]; intros [|b m] H; simpl in *; try discriminate; auto.
  f_equal. auto.
Qed.

Lemma map_snd_combine {A B} (l : list A) (m : list B) : length m = length l -> map snd (combine l m) = m.
Proof.
  revert m; induction l as [|a l IH]; intros [|b m] H; simpl in *; try discriminate; auto.
  f_equal. auto.
Qed.

Lemma mapM_map {A B C} (f : B -> res C) (g : A -> B) l : mapM f (map g l) = mapM (fun a => f (g a)) l.
Proof. induction l; simpl; auto. now rewrite IHl. Qed.

Lemma Forall2_length {A B} (P : A -> B -> Prop) la lb : Forall2 P la lb -> length la = length lb.
Proof. induction 1; simpl; auto. Qed.

Lemma Forall2_impl {A B} (P Q : A -> B -> Prop) la lb :
  (forall a b, P a b -> Q a b) -> Forall2 P la lb -> Forall2 Q la lb.
Proof. intros H. induction 1; constructor; auto. Qed.
