(** C86: the names of the elements of a model's variables. *)
From Coq Require Import String Ascii List ZArith Bool Arith Lia DecimalString DecimalNat Reals.
Require Import Verif.Py Verif.DictLemmas Verif.ElemModel Verif.ElemLemmas.
Import ListNotations.
Local Open Scope string_scope.

(** *** Specification *)
(** No two elements have the same name. *)
Definition distinct (m : naming) : Prop := forall w i w' i',
  i < size_of m w -> i' < size_of m w' -> name_of m w i = name_of m w' i' -> w = w' /\ i = i'.
(** The variables of the user completed by what a constructor supplies. *)
Definition completed (m : naming) : naming := fun w =>
  match m w with
  | Some l => Some l
  | None => if String.eqb w "piece_len" then Some ["piece_len"] else if String.eqb w "p" || String.eqb w "u" then Some [] else None
  end.
(** Derived variables take precedence over the user's. *)
Definition overlay (gens : sdict (list string)) (m : naming) : naming := fun w =>
  match dget String.eqb gens w with Some l => Some l | None => m w end.
(** The variables that are not derived. *)
Definition own (gens : sdict (list string)) (m : naming) : naming := fun w =>
  match dget String.eqb gens w with Some _ => None | None => m w end.
(** None of their elements has the name of a derived element. *)
Definition apart (gens : sdict (list string)) (m : naming) : Prop := forall w l n k g,
  own gens m w = Some l -> In n l -> dget String.eqb gens k = Some g -> ~ In n g.
Definition names (m : naming) (w : string) : list string := match m w with Some l => l | None => [] end.

(** *** Distinct names *)
Lemma distinct_alt m : distinct m <->
  (forall w l, m w = Some l -> NoDup l) /\ (forall w w' l l' n, m w = Some l -> m w' = Some l' -> In n l -> In n l' -> w = w').
Proof.
  unfold distinct, size_of, name_of. split.
  - intros H. split.
    + intros w l Hl. apply (NoDup_nth l ""). intros i j Hi Hj E. specialize (H w i w j). rewrite Hl in H. now apply H.
    + intros w w' l l' n Hl Hl' Hn Hn'. apply (In_nth _ _ "") in Hn as (i & Hi & Ei). apply (In_nth _ _ "") in Hn' as (j & Hj & Ej).
      specialize (H w i w' j). rewrite Hl, Hl' in H. apply H; congruence.
  - intros (H1 & H2) w i w' i'. destruct (m w) as [l|] eqn:El; [|lia]. destruct (m w') as [l'|] eqn:El'; [|lia]. intros Hi Hi' E.
    assert (w = w') as <- by (apply (H2 w w' l l' (nth i l "")); auto using nth_In; rewrite E; auto using nth_In).
    split; auto. assert (l' = l) as -> by congruence. apply (NoDup_nth l ""); auto. now apply (H1 w).
Qed.
Lemma distinct_ext m m' : (forall w, m w = m' w) -> distinct m -> distinct m'.
Proof. intros H D w i w' i'. specialize (D w i w' i'). unfold size_of, name_of in *. rewrite <- !H. exact D. Qed.
Lemma distinct_overlay gens m : distinct (overlay gens m) <-> distinct (own gens m) /\ distinct (dget String.eqb gens) /\ apart gens m.
Proof.
  rewrite !distinct_alt. unfold apart, overlay, own. split.
  - intros (H1 & H2). repeat split.
    + intros w l. specialize (H1 w). destruct (dget String.eqb gens w); [discriminate|]. apply H1.
    + intros w w' l l' n. specialize (H2 w w'). destruct (dget String.eqb gens w), (dget String.eqb gens w'); try discriminate. apply H2.
    + intros w l Hl. specialize (H1 w l). rewrite Hl in H1. now apply H1.
    + intros w w' l l' n Hl Hl'. specialize (H2 w w'). rewrite Hl, Hl' in H2. now apply H2.
    + intros w l n k g. specialize (H2 w k). destruct (dget String.eqb gens w) eqn:E; [discriminate|]. intros Hl Hn Hg Hn'.
      rewrite Hg in H2. assert (w = k) by (eapply H2; eauto). congruence.
  - intros ((H1 & H2) & (G1 & G2) & A). split.
    + intros w l. specialize (H1 w l). destruct (dget String.eqb gens w) eqn:E; [|auto]. intros [= <-]. eauto.
    + intros w w' l l' n. specialize (H2 w w'). pose proof (A w) as A1. pose proof (A w') as A2.
      destruct (dget String.eqb gens w) eqn:E, (dget String.eqb gens w') eqn:E'; intros Hl Hl' Hn Hn'.
      * injection Hl as <-. injection Hl' as <-. eauto.
      * injection Hl as <-. destruct (A2 l' n w l0); auto.
      * injection Hl' as <-. destruct (A1 l n w' l0); auto.
      * eauto.
Qed.

(** Pairwise disjoint lists of a dictionary. *)
Lemma distinct_dget (gens : sdict (list string)) : NoDup (flat_map snd gens) -> NoDup (map fst gens) -> distinct (dget String.eqb gens).
Proof.
  intros H HK. apply distinct_alt. induction gens as [|[k g] gens IH]; [split; discriminate|]. cbn [flat_map snd map fst] in H, HK.
  inversion_clear HK. assert (HG : NoDup g /\ NoDup (flat_map snd gens) /\ forall a, In a g -> ~ In a (flat_map snd gens)).
  { clear -H. induction g; cbn in *; [repeat split; auto; constructor|]. inversion_clear H. destruct IHg as (A & B & C); auto.
    rewrite in_app_iff in H0. repeat split; auto; [constructor; auto|]. intros b [<-|Hb]; auto. }
  destruct HG as (HG & HG' & HD). destruct (IH HG' H1) as (I1 & I2).
  assert (HI : forall w l n, dget String.eqb gens w = Some l -> In n l -> ~ In n g).
  { intros w l n Hl Hn Hg. apply (HD n Hg). apply in_flat_map. exists (w, l). split; auto. now apply (dget_In _ String.eqb_spec). }
  split.
  - intros w l. cbn. destruct (String.eqb_spec w k); [|apply I1]. now intros [= <-].
  - intros w w' l l' n. cbn. destruct (String.eqb_spec w k), (String.eqb_spec w' k); subst; auto.
    + intros [= <-] Hl' Hn Hn'. now destruct (HI w' l' n).
    + intros Hl [= <-] Hn Hn'. now destruct (HI w l n).
    + apply I2.
Qed.

(** *** C86_names: the format strings *)
(** The decimal form of a number is not empty, consists of digits and has that
    number as its value. *)
Theorem C86_decimal : forall k, decimal k <> "" /\ Forall (fun c => 48 <= nat_of_ascii c <= 57) (list_ascii_of_string (decimal k))
  /\ fold_left (fun a c => 10 * a + (nat_of_ascii c - 48)) (list_ascii_of_string (decimal k)) 0 = k.
Proof.
  intros k. split; [|split].
  - intros E. destruct k; [discriminate|]. assert (decimal (S k) <> "") as HN; [|auto].
    unfold decimal. intros E'. apply (f_equal NilEmpty.uint_of_string) in E'. rewrite NilEmpty.usu in E'. injection E' as E'.
    apply (f_equal Nat.of_uint) in E'. rewrite Unsigned.of_to in E'. discriminate.
  - eapply Forall_impl; [|apply digits_uint]. intros c H. unfold digit in H. apply andb_prop in H as [A B].
    apply Nat.leb_le in A. apply Nat.leb_le in B. lia.
  - rewrite <- (Unsigned.of_to k) at 2. unfold decimal, Nat.of_uint.
    assert (H : forall d a, fold_left (fun a c => 10 * a + (nat_of_ascii c - 48)) (list_ascii_of_string (NilEmpty.string_of_uint d)) a = Nat.of_uint_acc d a);
      [|apply H].
    induction d; intros a; cbn [NilEmpty.string_of_uint list_ascii_of_string fold_left Nat.of_uint_acc]; auto;
      rewrite IHd; f_equal; rewrite Nat.tail_mul_spec; cbn [nat_of_ascii N_of_ascii N_of_digits N.to_nat]; cbn; lia.
Qed.
(** The names determine what they are formed from, and names of different forms
    differ, whatever the names of the user are. *)
Theorem C86_forms : forall n k n' k',
  (n ++ "_piece_" ++ decimal k = n' ++ "_piece_" ++ decimal k' -> n = n' /\ k = k')
  /\ (n ++ "_initial" = n' ++ "_initial" -> n = n') /\ (n ++ "_final" = n' ++ "_final" -> n = n')
  /\ n ++ "_initial" <> n' ++ "_final" /\ n ++ "_piece_" ++ decimal k <> n' ++ "_initial" /\ n ++ "_piece_" ++ decimal k <> n' ++ "_final".
Proof.
  intros n k n' k'. repeat split.
  - now apply (piece_name_inj n k n' k').
  - now apply (piece_name_inj n k n' k').
  - apply initial_name_inj.
  - apply final_name_inj.
  - apply initial_final.
  - apply piece_initial.
  - apply piece_final.
Qed.
Theorem C86_forms_jme : forall j i j' i' n k,
  (("wc" ++ decimal j ++ "_interv_" ++ decimal i = "wc" ++ decimal j' ++ "_interv_" ++ decimal i') -> j = j' /\ i = i')
  /\ ("penweight" ++ decimal i = "penweight" ++ decimal i' -> i = i')
  /\ "wc" ++ decimal j ++ "_interv_" ++ decimal i <> "penweight" ++ decimal i'
  /\ n ++ "_piece_" ++ decimal k <> "wc" ++ decimal j ++ "_interv_" ++ decimal i
  /\ n ++ "_piece_" ++ decimal k <> "penweight" ++ decimal i.
Proof.
  intros. repeat split.
  - now apply (wc_name_inj j i j' i').
  - now apply (wc_name_inj j i j' i').
  - apply penweight_name_inj.
  - apply wc_pen.
  - apply piece_wc.
  - apply piece_pen.
Qed.

(** *** The constructors *)
Lemma naming_dset d k l w : naming_of (dset String.eqb d k (listed l)) w = if String.eqb w k then Some l else naming_of d w.
Proof. unfold naming_of. rewrite (dget_dset _ String.eqb_spec). now destruct (String.eqb w k). Qed.
Lemma naming_setdefault d k l w : naming_of (setdefault d k (listed l)) w =
  match naming_of d w with Some a => Some a | None => if String.eqb w k then Some l else None end.
Proof. unfold naming_of. rewrite dget_setdefault. destruct (dget String.eqb d w); cbn; auto. now destruct (String.eqb w k). Qed.
Lemma keys_dset (d : vdict) k v : NoDup (map fst d) -> NoDup (map fst (dset String.eqb d k v)).
Proof.
  assert (HI : forall d k', In k' (map fst (dset String.eqb d k v)) -> k' = k \/ In k' (map fst d)).
  { clear d. induction d as [|[a b] d IH]; cbn; [intros k' [->|[]]; auto|]. intros k'. destruct (String.eqb k a); cbn; [tauto|]. intros [->|H]; auto. destruct (IH _ H); auto. }
  induction d as [|[a b] d IH]; cbn; intros H; [constructor; auto; constructor|]. inversion_clear H.
  destruct (String.eqb_spec k a); cbn; constructor; auto. intros H. destruct (HI _ _ H); auto.
Qed.
Lemma keys_setdefault d k v : NoDup (map fst d) -> NoDup (map fst (setdefault d k v)).
Proof. unfold setdefault. destruct (dmem String.eqb d k); auto using keys_dset. Qed.
Lemma naming_None d w : naming_of d w = None <-> dget String.eqb d w = None.
Proof. unfold naming_of. destruct (dget String.eqb d w); cbn; split; auto; discriminate. Qed.

Definition col_gens (ncol : nat) (m : naming) : sdict (list string) :=
  [("xp", piece_names ncol (names m "x")); ("up", piece_names ncol (names m "u"))].
Definition oc_gens (ncol : nat) (m : naming) : sdict (list string) := (col_gens ncol m ++ [("xe", end_names (names m "x"))])%list.
Definition jme_gens (pen : bool) (ncol ninterv nw : nat) (m : naming) : sdict (list string) :=
  (col_gens ncol m ++ [("wc", wc_names nw ninterv)] ++ (if pen then [("penweight", penweight_names (length (names m "x")))] else []))%list.

(** *** C86_symcol: the variables of a collocation model *)
Theorem C86_symcol : forall ncol (user : vdict), NoDup (map fst user) ->
  (dget String.eqb user "x" = None -> symcol_variables ncol user = Err ValueError)
  /\ (dget String.eqb user "x" <> None -> exists v, symcol_variables ncol user = Ok v
      /\ NoDup (map fst v)
      /\ forall w, naming_of v w = overlay (col_gens ncol (naming_of user)) (completed (naming_of user)) w).
Proof.
  intros ncol user HN. unfold symcol_variables. change (dmerge String.eqb [] user) with (dmake String.eqb user). rewrite (dmake_NoDup _ String.eqb_spec) by auto.
  set (d := setdefault _ "u" _). assert (Hk : NoDup (map fst d)) by (subst d; auto using keys_setdefault).
  assert (Hd : forall w, naming_of d w = completed (naming_of user) w).
  { intros w. subst d. rewrite !naming_setdefault. unfold completed. destruct (naming_of user w); auto.
    destruct (String.eqb_spec w "piece_len"); auto. destruct (String.eqb w "p"); cbn; auto. }
  assert (Hx : forall w, naming_of d w = match naming_of user w with Some l => Some l | None => completed (naming_of user) w end).
  { intros w. rewrite Hd. unfold completed. now destruct (naming_of user w). }
  split.
  - intros E. apply naming_None in E. specialize (Hd "x"). unfold completed in Hd. rewrite E in Hd. cbn in Hd. apply naming_None in Hd. now rewrite Hd.
  - intros E. pose proof (Hd "x") as HX. pose proof (Hd "u") as HU. unfold completed in HX, HU.
    assert (EX : exists x, naming_of user "x" = Some x).
    { destruct (naming_of user "x") eqn:E'; eauto. now apply naming_None in E'. }
    destruct EX as (x & EX). rewrite EX in HX. unfold naming_of in HX at 1. destruct (dget String.eqb d "x") as [X|]; [|discriminate].
    cbn in HX. injection HX as HX. cbn [bind].
    assert (EU : exists U, dget String.eqb d "u" = Some U /\ v_elems U = names (naming_of user) "u").
    { unfold names. unfold naming_of in HU at 1. destruct (dget String.eqb d "u") as [U|].
      - exists U. split; auto. cbn in HU. destruct (naming_of user "u"); cbn in HU; now injection HU.
      - exfalso. destruct (naming_of user "u"); discriminate. }
    destruct EU as (U & EU & EU'). unfold dlookup. rewrite EU. cbn [bind]. eexists. split; [reflexivity|]. split; [auto using keys_dset|].
    intros w. rewrite !naming_dset, HX, EU'. unfold overlay, col_gens, names. rewrite EX. cbn [dget].
    destruct (String.eqb_spec w "up"), (String.eqb_spec w "xp"); subst; auto. discriminate.
Qed.

Lemma names_overlay gens m w : dget String.eqb gens w = None -> names (overlay gens m) w = names m w.
Proof. unfold names, overlay. now intros ->. Qed.

(** *** C86_symoc: the variables of an optimal control model *)
(** The dictionary of the caller gains the end points and the empty defaults. *)
Theorem C86_symoc : forall ncol (user : vdict), NoDup (map fst user) ->
  (dget String.eqb user "x" = None -> symoc_init ncol user = (user, Err ValueError))
  /\ (dget String.eqb user "x" <> None -> exists after v, symoc_init ncol user = (after, Ok v)
      /\ NoDup (map fst after) /\ NoDup (map fst v)
      /\ (forall w, naming_of v w = overlay (oc_gens ncol (naming_of user)) (completed (naming_of user)) w)
      /\ (forall w, naming_of after w = if String.eqb w "xe" then Some (end_names (names (naming_of user) "x"))
            else match naming_of user w with Some l => Some l | None => if String.eqb w "p" || String.eqb w "u" then Some [] else None end)).
Proof.
  intros ncol user HN. unfold symoc_init. split; [now intros ->|]. intros Hx. destruct (dget String.eqb user "x") as [X|] eqn:EX; [|congruence].
  set (after := setdefault _ "u" _). assert (HK : NoDup (map fst after)) by (subst after; auto using keys_setdefault, keys_dset).
  assert (ENX : names (naming_of user) "x" = v_elems X) by (unfold names, naming_of; now rewrite EX).
  assert (HA : forall w, naming_of after w = if String.eqb w "xe" then Some (end_names (names (naming_of user) "x"))
            else match naming_of user w with Some l => Some l | None => if String.eqb w "p" || String.eqb w "u" then Some [] else None end).
  { intros w. subst after. rewrite !naming_setdefault, naming_dset, ENX. destruct (String.eqb w "xe"); auto. destruct (naming_of user w); auto. now destruct (String.eqb w "p"). }
  destruct (C86_symcol ncol after HK) as (_ & H). destruct H as (v & Hv & Hk & Hn).
  { intros E. apply naming_None in E. rewrite HA in E. cbn in E. unfold naming_of in E. now rewrite EX in E. }
  exists after, v. repeat split; auto; [now rewrite Hv|]. intros w. rewrite Hn. unfold overlay, oc_gens, col_gens, completed. cbn [dget app].
  assert (E1 : names (naming_of after) "x" = names (naming_of user) "x") by (unfold names; rewrite HA; cbn; destruct (naming_of user "x"); auto).
  assert (E2 : names (naming_of after) "u" = names (naming_of user) "u") by (unfold names; rewrite HA; cbn; destruct (naming_of user "u"); auto).
  rewrite E1, E2, HA. destruct (String.eqb_spec w "xp"); auto. destruct (String.eqb_spec w "up"); auto. destruct (String.eqb_spec w "xe"); auto.
  destruct (naming_of user w); auto. destruct (String.eqb_spec w "p"); subst; auto. destruct (String.eqb_spec w "u"); subst; auto.
Qed.

(** *** C86_symoem: the variables of an output error model *)
Theorem C86_symoem : forall ncol (user : vdict), NoDup (map fst user) ->
  let after := fst (symoem_init ncol user) in
  (forall w, naming_of after w = match naming_of user w with Some l => Some l | None => if String.eqb w "u" then Some [] else None end)
  /\ NoDup (map fst after)
  /\ (dget String.eqb user "x" = None -> snd (symoem_init ncol user) = Err ValueError)
  /\ (dget String.eqb user "x" <> None -> exists v, snd (symoem_init ncol user) = Ok v /\ NoDup (map fst v)
      /\ forall w, naming_of v w = overlay (col_gens ncol (naming_of user)) (completed (naming_of user)) w).
Proof.
  intros ncol user HN after. unfold symoem_init in *. cbn [fst snd] in *.
  assert (HA : forall w, naming_of after w = match naming_of user w with Some l => Some l | None => if String.eqb w "u" then Some [] else None end)
    by (intros w; apply naming_setdefault).
  assert (HK : NoDup (map fst after)) by now apply keys_setdefault.
  destruct (C86_symcol ncol after HK) as (H1 & H2). fold after. repeat split; auto.
  - intros E. apply H1. apply naming_None. rewrite HA. apply naming_None in E. now rewrite E.
  - intros E. destruct H2 as (v & Hv & Hk & Hn).
    { intros E'. apply naming_None in E'. rewrite HA in E'. apply E, naming_None. now destruct (naming_of user "x"). }
    exists v. repeat split; auto. intros w. rewrite Hn. unfold overlay, col_gens, completed. cbn [dget app].
    assert (E1 : names (naming_of after) "x" = names (naming_of user) "x") by (unfold names; rewrite HA; cbn; destruct (naming_of user "x"); auto).
    assert (E2 : names (naming_of after) "u" = names (naming_of user) "u") by (unfold names; rewrite HA; cbn; destruct (naming_of user "u"); auto).
    rewrite E1, E2, HA. destruct (String.eqb w "xp"); auto. destruct (String.eqb w "up"); auto. destruct (naming_of user w); auto.
    destruct (String.eqb_spec w "u"); subst; auto.
Qed.

(** *** C86_symjme: the variables of a joint estimation model *)
Theorem C86_symjme : forall pen ncol ninterv (user : vdict), NoDup (map fst user) ->
  (dget String.eqb user "G" = None -> symjme_init pen ncol ninterv user = (user, Err KeyError))
  /\ (forall G, dget String.eqb user "G" = Some G -> v_arr G = None -> symjme_init pen ncol ninterv user = (user, Err AttributeError))
  /\ (forall G sh, dget String.eqb user "G" = Some G -> v_arr G = Some sh -> length sh < 2 -> symjme_init pen ncol ninterv user = (user, Err IndexError))
  /\ (forall G sh, dget String.eqb user "G" = Some G -> v_arr G = Some sh -> 2 <= length sh ->
      let nw := nth 1 sh 0 in let r := symjme_init pen ncol ninterv user in
      NoDup (map fst (fst r))
      /\ (forall w, naming_of (fst r) w = if String.eqb w "wc" then Some (wc_names nw ninterv)
            else match naming_of user w with Some l => Some l | None => if String.eqb w "u" then Some [] else None end)
      /\ (dget String.eqb user "x" = None -> snd r = Err ValueError)
      /\ (dget String.eqb user "x" <> None -> exists v, snd r = Ok v
            /\ forall w, naming_of v w = overlay (jme_gens pen ncol ninterv nw (naming_of user)) (completed (naming_of user)) w)).
Proof.
  intros pen ncol ni user HN. unfold symjme_init. split; [now intros ->|]. split; [intros G -> HA; now rewrite HA|]. split.
  - intros G sh -> -> H. now rewrite (proj2 (nth_error_None sh 1)) by lia.
  - intros G sh HG Hs Hl. rewrite HG, Hs. rewrite (nth_error_nth' sh 0) by lia. set (nw := nth 1 sh 0).
    set (d := dset _ _ "wc" _). assert (Hk : NoDup (map fst d)) by now apply keys_dset.
    assert (Hd : forall w, naming_of d w = if String.eqb w "wc" then Some (wc_names nw ni) else naming_of user w) by (intros w; apply naming_dset).
    destruct (C86_symoem ncol d Hk) as (A1 & A2 & A3 & A4). destruct (symoem_init ncol d) as [after r]. cbn [fst snd] in *.
    assert (Hx : dget String.eqb d "x" = None <-> dget String.eqb user "x" = None) by (rewrite <- !naming_None, Hd; reflexivity).
    split; auto. split; [intros w; rewrite A1, Hd; now destruct (String.eqb w "wc")|]. split.
    + intros E. rewrite A3 by tauto. reflexivity.
    + intros E. destruct A4 as (v & -> & HK & Hv); [tauto|]. cbn [bind].
      assert (E1 : names (naming_of d) "x" = names (naming_of user) "x") by (unfold names; rewrite Hd; reflexivity).
      assert (E2 : names (naming_of d) "u" = names (naming_of user) "u") by (unfold names; rewrite Hd; reflexivity).
      assert (HV : forall w, naming_of v w = overlay (jme_gens false ncol ni nw (naming_of user)) (completed (naming_of user)) w).
      { intros w. rewrite Hv. unfold overlay, jme_gens, col_gens, completed. cbn [dget app]. rewrite E1, E2, Hd.
        destruct (String.eqb w "xp"); auto. destruct (String.eqb w "up"); auto. destruct (String.eqb w "wc"); auto. }
      destruct pen; [|eauto].
      assert (HX : exists x, dget String.eqb v "x" = Some x /\ v_elems x = names (naming_of user) "x").
      { pose proof (HV "x") as HX. unfold overlay, jme_gens, col_gens, completed in HX. cbn [dget app String.eqb] in HX. cbn in HX.
        unfold names. destruct (naming_of user "x") eqn:E'; [|now apply naming_None in E'; tauto].
        unfold naming_of in HX. destruct (dget String.eqb v "x"); [|discriminate]. cbn in HX. eexists. split; eauto. congruence. }
      destruct HX as (x & HX & HX'). unfold dlookup. rewrite HX. cbn [bind]. eexists. split; [reflexivity|]. intros w.
      rewrite naming_dset, HV, HX'. unfold overlay, jme_gens, col_gens. cbn [dget app].
      destruct (String.eqb_spec w "penweight"); subst; auto.
Qed.
