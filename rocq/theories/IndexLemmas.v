(** Multi-indices of arrays. *)
From Coq Require Import List ZArith Bool Arith Lia.
From Verif Require Import Py NdArray NdLemmas OptimModel OptimSpec OptimLaws LawFacts.
Import ListNotations.

(** [ix] is a multi-index of an array of shape [s]. *)
Definition index_in (s : shape) (ix : list nat) : Prop :=
  length ix = length s /\ forall k, (k < length s)%nat -> (nth k ix O < nth k s O)%nat.

Lemma ravel_app (s t : shape) ix jx : length ix = length s ->
  ravel (s ++ t) (ix ++ jx) = (ravel s ix * prodn t + ravel t jx)%nat.
Proof.
  revert ix. induction s as [|d s IH]; intros [|i ix] H; try discriminate; [reflexivity|].
  cbn [app ravel]. rewrite IH by (simpl in H; lia). rewrite prodn_app. lia.
Qed.

Lemma index_in_lt s ix : index_in s ix -> (ravel s ix < prodn s)%nat.
Proof.
  intros [H1 H2]. pose proof (bpos_ravel s s ix (bcompat_refl s) H1 H2) as [_ H]. exact H.
Qed.

Lemma unravel s i : (i < prodn s)%nat -> exists ix, index_in s ix /\ ravel s ix = i.
Proof.
  revert i. induction s as [|d s IH]; intros i Hi.
  - exists []. split; [split; [reflexivity|simpl; lia]|simpl in *; lia].
  - cbn [prodn fold_right] in Hi. fold (prodn s) in Hi.
    destruct (radix_split _ _ _ Hi) as (q & r & Hq & Hr & ->). destruct (IH r Hr) as (ix & [H1 H2] & <-).
    exists (q :: ix). split; [|reflexivity]. split; [simpl; lia|]. intros [|k] Hk; simpl; auto. apply H2. simpl in Hk. lia.
Qed.

