(** Property C20: extraction of the nonzero elements of symbolic derivatives
    (symoptim.py:117-161). *)
From Coq Require Import String List ZArith Bool Arith Lia Sorted.
From Verif Require Import Py NdArray OptimModel DictLemmas NdLemmas OptimSpec OptimLaws LawFacts
  IndexLemmas GenModel SymModel NameLemmas SymLemmas.
Import ListNotations.
Local Open Scope string_scope.
Local Open Scope list_scope.

(** ** Specification *)

(** Column [k] of an index array. *)
Definition column (ind : list (list Z)) (k : nat) : list nat := map (fun row => Z.to_nat (nth k row 0%Z)) ind.

(** When both variables are the same only half of the positions are listed. *)
Definition half (wrt : list string) (ix : list nat) : Prop :=
  forall a, wrt = [a; a] -> (nth 0 ix 0 <= nth 1 ix 0)%nat.

(** The value listed at position [ix]; zero when it is not listed. *)
Definition listed {T} {NT : Num T} (ind : list (list Z)) (vals : list (sexpr T)) (A : list (list T)) (ix : list nat) : T :=
  match find (fun k => if list_eq_dec Nat.eq_dec (column ind k) ix then true else false) (seq 0 (List.length vals)) with
  | Some k => se_eval (nth k vals (SE false (fun _ => n0))) A
  | None => n0
  end.

Section C20.
  Context {T : Type} {NT : Num T}.
  Notation zexpr := (SE false (fun _ => n0) : sexpr T).

  Lemma column_transpose rows inds k : k < List.length inds -> List.length (nth k inds []) = rows ->
    column (transpose_ind rows inds) k = nth k inds [].
  Proof.
    intros Hk HL. unfold column, transpose_ind. rewrite map_map. apply (list_eq_nth O).
    - rewrite map_length, seq_length. auto.
    - intros i Hi. rewrite map_length, seq_length in Hi. rewrite nth_map_seq by auto.
      rewrite (nth_map_d _ _ _ []) by auto. apply Nat2Z.id.
  Qed.

  Lemma half_keep wrt ix : half wrt ix <-> keepind wrt ix = true.
  Proof.
    unfold half, keepind. destruct wrt as [|a [|b [|c wrt]]]; try (split; [reflexivity|intros _ a' [=]]).
    destruct (String.eqb_spec a b) as [->|Hne].
    - split; [intros H; apply Nat.leb_le, (H b eq_refl)|intros H a' [= -> _]; now apply Nat.leb_le].
    - split; [reflexivity|intros _ a' [= -> ->]; contradiction].
  Qed.

  Lemma find_none_seq (P : nat -> bool) n : (forall k, k < n -> P k = false) -> find P (seq 0 n) = None.
  Proof.
    intros H. destruct (find P (seq 0 n)) eqn:E; auto. apply find_some in E as [E1 E2]. apply in_seq in E1.
    rewrite H in E2 by lia. discriminate.
  Qed.
  Lemma find_some_seq (P : nat -> bool) n k : k < n -> P k = true -> (forall j, j < n -> P j = true -> j = k) ->
    find P (seq 0 n) = Some k.
  Proof.
    intros Hk HP HU. destruct (find P (seq 0 n)) as [j|] eqn:E.
    - apply find_some in E as [E1 E2]. apply in_seq in E1. f_equal. apply HU; auto. lia.
    - pose proof (find_none _ _ E k) as H. rewrite HP in H. discriminate H. apply in_seq. lia.
  Qed.

  Lemma sorted_nth (l : list nat) : StronglySorted lt l -> forall i j, i < j < List.length l -> nth i l 0 < nth j l 0.
  Proof.
    induction 1 as [|x l HS IH HF]; intros i j Hij; [simpl in Hij; lia|].
    destruct j as [|j]; [lia|]. destruct i as [|i]; simpl.
    - pose proof (proj1 (Forall_forall _ _) HF (nth j l 0)). apply H, nth_In. simpl in Hij. lia.
    - apply IH. simpl in Hij. lia.
  Qed.

  (** For every function, differentiation variables and valuation [A]: the
      call succeeds; the stored indices are valid positions, listed in
      increasing row-major order (so at most once), in the kept half; looking
      a position up gives the full derivative there (zero outside the kept
      half). *)
  Theorem C20_sparse_extraction (sizes : string -> nat) (m : smodel T) fname f wrt d :
    let dims := map sizes wrt ++ [prodn (sf_out f)] in
    dget String.eqb (m_fun m) fname = Some f ->
    (forall w, In w wrt -> exists s, dget String.eqb (m_vars m) w = Some s /\ prodn s = sizes w) ->
    List.length (sf_deriv f wrt) = prodn dims ->
    (forall e, In e (sf_deriv f wrt) -> se_nz e = false -> forall A, se_eval e A = n0) ->
    exists m' n ind vals, add_sparse_derivative m fname wrt d = Ok (m', n) /\
      dget String.eqb (m_nzind m') d = Some ind /\ dget String.eqb (m_nnz m') d = Some n /\
      dget String.eqb (m_attr m') (d ++ "_val")%string = Some vals /\
      List.length ind = S (List.length wrt) /\ Forall (fun row => List.length row = n) ind /\ List.length vals = n /\
      (forall k, k < n -> index_in dims (column ind k) /\ half wrt (column ind k)) /\
      (forall j k, j < k < n -> ravel dims (column ind j) < ravel dims (column ind k)) /\
      (forall ix A, index_in dims ix ->
         (half wrt ix -> listed ind vals A ix = se_eval (nth (ravel dims ix) (sf_deriv f wrt) zexpr) A) /\
         (~ half wrt ix -> listed ind vals A ix = n0)).
  Proof.
    intros dims Hf HD HL HZ.
    pose proof (add_sparse_derivative_ok sizes m fname f wrt d Hf HD HL) as E. rewrite E.
    set (nz := nz_of sizes f wrt) in *. set (K := kept wrt dims (sf_deriv f wrt)).
    assert (HN : nz = map (fun k => (nth k (ndindex dims) [], nth k (sf_deriv f wrt) zexpr)) K).
    { apply nonzeros_kept. exact HL. }
    assert (LK : List.length nz = List.length K) by (rewrite HN; apply map_length).
    eexists _, _, _, _. split; [reflexivity|]. cbn [set_nz m_nzind m_nnz m_attr].
    rewrite !(dget_dset String.eqb String.eqb_spec), !String.eqb_refl.
    split; [reflexivity|]. split; [reflexivity|]. split; [reflexivity|].
    split; [unfold transpose_ind; now rewrite map_length, seq_length|].
    split. { apply Forall_forall. intros row Hr. unfold transpose_ind in Hr. apply in_map_iff in Hr as (r & <- & _). now rewrite !map_length. }
    split; [apply map_length|].
    assert (HK : forall k, k < List.length K -> nth k K 0 < prodn dims /\ keepind wrt (nth (nth k K 0) (ndindex dims) []) = true).
    { intros k Hk. pose proof (kept_In wrt dims (sf_deriv f wrt) (nth k K 0) (nth_In _ _ Hk)). tauto. }
    assert (HC : forall k, k < List.length K ->
       column (transpose_ind (S (List.length wrt)) (map fst nz)) k = nth (nth k K 0) (ndindex dims) []).
    { intros k Hk. rewrite column_transpose.
      - rewrite HN, map_map. cbn [fst]. now rewrite (nth_map_d _ _ _ O).
      - rewrite map_length. lia.
      - rewrite HN, map_map. cbn [fst]. rewrite (nth_map_d _ _ _ O) by auto.
        destruct (ndindex_spec dims (nth k K 0)) as [[I _] _]; [now apply HK|]. rewrite I. unfold dims.
        rewrite app_length, map_length. simpl. lia. }
    assert (HR : forall k, k < List.length K ->
       ravel dims (column (transpose_ind (S (List.length wrt)) (map fst nz)) k) = nth k K 0).
    { intros k Hk. rewrite HC by auto. apply ndindex_spec, HK. auto. }
    split; [|split].
    - intros k Hk. rewrite LK in Hk. rewrite HC by auto. split.
      + apply ndindex_spec, HK. auto.
      + apply half_keep, HK. auto.
    - intros j k Hjk. rewrite LK in Hjk. rewrite !HR by lia. apply sorted_nth; [apply filter_seq_sorted|auto].
    - intros ix A Hix.
      assert (HV : forall k, k < List.length K -> nth k (map snd nz) zexpr = nth (nth k K 0) (sf_deriv f wrt) zexpr).
      { intros k Hk. rewrite HN, map_map. cbn [snd]. now rewrite (nth_map_d _ _ _ O). }
      assert (HIx : nth (ravel dims ix) (ndindex dims) [] = ix) by (apply ndindex_nth; auto).
      unfold listed. rewrite map_length, LK. split.
      + intros Hh. destruct (se_nz (nth (ravel dims ix) (sf_deriv f wrt) zexpr)) eqn:Ez.
        * assert (Hin : In (ravel dims ix) K).
          { apply filter_In. split; [apply in_seq; pose proof (index_in_lt _ _ Hix); lia|].
            rewrite HIx. apply half_keep in Hh. rewrite Hh. exact Ez. }
          apply (In_nth _ _ O) in Hin as (k & Hk & Ek).
          rewrite (find_some_seq _ _ k); auto.
          -- f_equal. rewrite HV, Ek; auto.
          -- destruct (list_eq_dec Nat.eq_dec _ ix) as [|Hne]; auto. exfalso. apply Hne. now rewrite HC, Ek by auto.
          -- intros j Hj Hp. destruct (list_eq_dec Nat.eq_dec _ ix) as [He|]; [|discriminate].
             assert (nth j K 0 = nth k K 0) by (rewrite Ek, <- He, HR; auto).
             destruct (Nat.lt_trichotomy j k) as [Hl|[|Hl]]; auto; exfalso.
             ++ pose proof (sorted_nth K (filter_seq_sorted _ _ _) j k ltac:(lia)). lia.
             ++ pose proof (sorted_nth K (filter_seq_sorted _ _ _) k j ltac:(lia)). lia.
        * rewrite find_none_seq.
          -- symmetry. apply HZ; auto. apply nth_In. rewrite HL. now apply index_in_lt.
          -- intros k Hk. destruct (list_eq_dec Nat.eq_dec _ ix) as [He|]; auto. exfalso.
             pose proof (kept_In wrt dims (sf_deriv f wrt) (nth k K 0) (nth_In _ _ Hk)) as (_ & _ & Hnz).
             rewrite <- (HR k Hk), He in Hnz. unfold zero_expr in Hnz. congruence.
      + intros Hh. rewrite find_none_seq; auto. intros k Hk. destruct (list_eq_dec Nat.eq_dec _ ix) as [He|]; auto.
        exfalso. apply Hh. rewrite <- He, HC by auto. apply half_keep, HK. auto.
  Qed.
End C20.
Print Assumptions C20_sparse_extraction.

(** f(x) = (x0 x1, x1) and its derivatives: the sparse Jacobian has three of four entries, the sparse second
    derivative one of eight. *)
Section Ex.
  Context {T : Type} {NT : Num T}.
  Definition xe (k : nat) : sexpr T := SE true (fun A => nth k (nth 0 A []) n0).
  Definition ze : sexpr T := SE false (fun _ => n0).
  Definition oe : sexpr T := SE true (fun _ => n1).
  Definition exf : sfun T := SF ["x"] [2]
    [SE true (fun A => nmul (nth 0 (nth 0 A []) n0) (nth 1 (nth 0 A []) n0)); xe 1]
    (fun wrt => match wrt with
                | [_] => [xe 1; ze; xe 0; oe]
                | _ => [ze; ze; oe; ze; oe; ze; ze; ze]
                end).
  Definition exm : smodel T := SM [("x", [2])] ["x"] [("f", exf)] [] [] [] [] [].
  Example C20_nonvacuous :
    (forall w, In w ["x"; "x"] -> exists s, dget String.eqb (m_vars exm) w = Some s /\ prodn s = 2) /\
    List.length (sf_deriv exf ["x"; "x"]) = 8 /\
    (forall e, In e (sf_deriv exf ["x"; "x"]) -> se_nz e = false -> forall A, se_eval e A = n0) /\
    (exists m', add_sparse_derivative exm "f" ["x"] "df_dx" = Ok (m', 3) /\
       dget String.eqb (m_nzind m') "df_dx" = Some [[0; 1; 1]; [0; 0; 1]]%Z) /\
    (exists m', add_sparse_derivative exm "f" ["x"; "x"] "d2f_dx2" = Ok (m', 1) /\
       dget String.eqb (m_nzind m') "d2f_dx2" = Some [[0]; [1]; [0]]%Z).
  Proof.
    split; [|split; [reflexivity|split; [|split]]].
    - intros w [<-|[<-|[]]]; exists [2]; auto.
    - intros e He. simpl in He. intuition (subst; auto); discriminate.
    - eexists. split; reflexivity.
    - eexists. split; reflexivity.
  Qed.
End Ex.
