(** Lemmas about [ObjModel]: the methods of the object compute what
    [NdKalModel] says, and bind only the attributes listed. *)
From Coq Require Import String Ascii.
From Verif Require Import Py.
From mathcomp Require Import all_ssreflect all_algebra.
From Verif Require Import KalModel NpModel NdKalModel ObjModel.
Set Implicit Arguments.
Unset Strict Implicit.
Unset Printing Implicit Defensive.
Import Order.TTheory GRing.Theory Num.Theory.
Local Open Scope ring_scope.

(** An attribute, or with the name * all the attributes of an instance. *)
Definition pat := (owner * string)%type.
Definition hits (p : pat) (o : owner) (a : string) : bool :=
  owner_eqb p.1 o && (String.eqb p.2 "*" || String.eqb p.2 a).
Definition touched (ps : seq pat) (o : owner) (a : string) : bool := has (fun p => hits p o a) ps.
Definition covers (ps qs : seq pat) : bool := all (fun q => touched ps q.1 q.2) qs.

Lemma owner_eqP a b : owner_eqb a b -> a = b. Proof. by case: a; case: b. Qed.
Lemma owner_eqxx a : owner_eqb a a. Proof. by case: a. Qed.
Lemma eqbP a b : String.eqb a b -> a = b. Proof. by move/String.eqb_eq. Qed.

Lemma hits_trans p q o a : hits q o a -> hits p q.1 q.2 -> hits p o a.
Proof.
rewrite /hits => /andP [/owner_eqP <- H1] /andP [/owner_eqP <- /orP [H|/eqbP H]]; rewrite owner_eqxx /=; first by rewrite H.
by rewrite H.
Qed.
Lemma touched_trans ps q o a : hits q o a -> touched ps q.1 q.2 -> touched ps o a.
Proof.
move=> H; elim: ps => [//|p ps IH] /= /orP [H1|H1]; apply/orP; [left|right; exact: IH].
exact: hits_trans H H1.
Qed.
Lemma covers_touched ps qs o a : covers ps qs -> touched ps o a = false -> touched qs o a = false.
Proof.
move=> C T; elim: qs C => [//|q qs IH] /= /andP [H C]; rewrite (IH C) orbF.
by apply/negbTE/negP => H1; rewrite (touched_trans H1 H) in T.
Qed.

Section Frames.
Variable F : rcfType.
Local Notation obj := (obj F).

Lemma upd_hit (st : obj) o a v o' a' : owner_eqb o o' && String.eqb a a' = true -> upd st o a v o' a' = Some v.
Proof. by rewrite /upd => ->. Qed.
Lemma upd_miss (st : obj) o a v o' a' : owner_eqb o o' && String.eqb a a' = false -> upd st o a v o' a' = st o' a'.
Proof. by rewrite /upd => ->. Qed.

Lemma wipe_hit (st : obj) o o' a : owner_eqb o o' = true -> wipe st o o' a = None.
Proof. by rewrite /wipe => ->. Qed.
Lemma wipe_miss (st : obj) o o' a : owner_eqb o o' = false -> wipe st o o' a = st o' a.
Proof. by rewrite /wipe => ->. Qed.

(** Only the attributes listed in [ps] differ. *)
Definition frame (ps : seq pat) (st st' : obj) : Prop := forall o a, touched ps o a = false -> st' o a = st o a.

Lemma frame_refl ps st : frame ps st st. Proof. by []. Qed.
Lemma frame_upd ps st st' o a v : touched ps o a = true -> frame ps st st' -> frame ps st (upd st' o a v).
Proof.
move=> T H o' a' N; rewrite upd_miss ?H //.
apply/negbTE/negP => /andP [/owner_eqP E1 /eqbP E2]; by rewrite E1 E2 N in T.
Qed.
Lemma frame_trans ps qs st0 st1 st2 : covers ps qs = true -> frame qs st1 st2 -> frame ps st0 st1 -> frame ps st0 st2.
Proof. by move=> C H2 H1 o a N; rewrite H2 ?H1 // (covers_touched C N). Qed.
Lemma frame_renew ps st st' o : touched ps o "*" = true -> frame ps st st' ->
  frame ps st (wipe st' o).
Proof.
move=> T H o' a' N; rewrite /wipe; case E: (owner_eqb o o'); last exact: H.
have Hq : hits (o, "*"%string) o' a' by rewrite /hits /= E.
by rewrite (touched_trans (q := (o, "*"%string)) Hq T) in N.
Qed.

(** ** Two runs *)

(** A computation on values and a call with the same outcome; [E] holds of
    the object after an exception. *)
Definition sim A B (E : obj -> Prop) (r : res A) (p : res B * obj) (P : A -> B -> obj -> Prop) : Prop :=
  match r, p with
  | Ok a, (Ok b, st') => P a b st'
  | Err e, (Err e', st') => e = e' /\ E st'
  | _, _ => False
  end.

Lemma sim_lift A C D (E : obj -> Prop) (r : res A) (f : A -> res C) (g : A -> met F D) st P :
  E st -> (forall a, r = Ok a -> sim E (f a) (g a st) P) -> sim E (bind r f) (bnd (lift r) g st) P.
Proof. by case: r => [a|e] H H1 /=; [exact: H1|split]. Qed.
Lemma sim_set C D (E : obj -> Prop) (r : res C) (g : unit -> met F D) o a v st P :
  sim E r (g tt (upd st o a v)) P -> sim E r (bnd (setv o a v) g st) P.
Proof. by []. Qed.
Lemma sim_get A C D (E : obj -> Prop) (as_ : val F -> res A) (r : res C) (g : A -> met F D) o a v x st P :
  st o a = Some v -> as_ v = Ok x -> sim E r (g x st) P -> sim E r (bnd (geta as_ o a) g st) P.
Proof. by rewrite /geta /bnd /getv => -> /= ->. Qed.
Lemma sim_call A B C D (E E' : obj -> Prop) (r : res A) (f : A -> res C) (m : met F B) (g : B -> met F D) st P (P' : A -> B -> obj -> Prop) :
  sim E' r (m st) P' -> (forall st', E' st' -> E st') -> (forall a b st', r = Ok a -> P' a b st' -> sim E (f a) (g b st') P) ->
  sim E (bind r f) (bnd m g st) P.
Proof.
rewrite /sim /bnd; case: r => [a|e]; case: (m st) => [[b|e'] st'] //= H H1 H2; first exact: H2 H.
by case: H => -> H; split=> //; apply: H1.
Qed.
(** A call that does not correspond to a step of the computation. *)
Lemma sim_skip B C D (E : obj -> Prop) (r : res C) (m : met F B) (g : B -> met F D) st P b st' :
  m st = (Ok b, st') -> sim E r (g b st') P -> sim E r (bnd m g st) P.
Proof. by rewrite /bnd => ->. Qed.
Lemma sim_pure A C D (E : obj -> Prop) (r : res A) (f : A -> res C) (m : met F A) (g : A -> met F D) st P :
  m st = (r, st) -> E st -> (forall a, r = Ok a -> sim E (f a) (g a st) P) -> sim E (bind r f) (bnd m g st) P.
Proof. by rewrite /bnd => ->; case: r => [a|e] /= H H1; [exact: H1|split]. Qed.
Lemma sim_ok A B (E : obj -> Prop) (a : A) (b : B) st (P : A -> B -> obj -> Prop) : P a b st -> sim E (Ok a) (ret b st) P.
Proof. by []. Qed.
Lemma sim_tail A B (E : obj -> Prop) (r : res A) (m : met F B) st P : sim E r (bnd m (@ret F B) st) P -> sim E r (m st) P.
Proof. by rewrite /bnd; case: (m st) => [[]]. Qed.
Lemma sim_weaken A B (E E' : obj -> Prop) (r : res A) p (P P' : A -> B -> obj -> Prop) :
  sim E' r p P' -> (forall st', E' st' -> E st') -> (forall a b st', r = Ok a -> P' a b st' -> P a b st') -> sim E r p P.
Proof.
rewrite /sim; case: r => [a|e]; case: p => [[b|e'] st'] // H H1 H2; first exact: H2.
by case: H => -> /H1.
Qed.
Lemma bind_bind A B C (m : res A) (f : A -> res B) (g : B -> res C) : bind (bind m f) g = bind m (fun a => bind (f a) g).
Proof. by case: m. Qed.
Lemma bind_Ok A B (a : A) (f : A -> res B) : bind (Ok a) f = f a. Proof. by []. Qed.
Lemma sim_call2 A1 A2 B C D (E E' : obj -> Prop) (r1 : res A1) (r2 : A1 -> res A2) (h : A1 -> A2 -> res C) (m : met F B) (g : B -> met F D) st P
    (P' : A1 * A2 -> B -> obj -> Prop) :
  sim E' (let* a := r1 in let* b := r2 a in Ok (a, b)) (m st) P' -> (forall st', E' st' -> E st') ->
  (forall a1 a2 b st', r1 = Ok a1 -> r2 a1 = Ok a2 -> P' (a1, a2) b st' -> sim E (h a1 a2) (g b st') P) ->
  sim E (bind r1 (fun a => bind (r2 a) (h a))) (bnd m g st) P.
Proof.
rewrite /sim /bnd; case: r1 => [a1|e] /=; last by case: (m st) => [[b|e'] st'] //= [-> H] H1 _; split=> //; apply: H1.
case E2: (r2 a1) => [a2|e] /=; last by case: (m st) => [[b|e'] st'] //= [-> H] H1 _; split=> //; apply: H1.
by case: (m st) => [[b|e'] st'] //= H H1 H2; apply: H2 H.
Qed.
Lemma bnd_assoc A B C (m : met F A) (f : A -> met F B) (g : B -> met F C) st :
  bnd (bnd m f) g st = bnd m (fun a => bnd (f a) g) st.
Proof. by rewrite /bnd; case: (m st) => [[]]. Qed.
End Frames.

(** [lk] proves [st o a = Some v] by looking through bindings and frames. *)
Ltac lk1 :=
  lazymatch goal with
  | |- upd _ ?o ?a _ ?o ?a = _ => apply: upd_hit; vm_compute; reflexivity
  | |- upd _ _ _ _ _ _ = _ => etransitivity; [apply: upd_miss; vm_compute; reflexivity|]
  | |- wipe _ ?o ?o _ = _ => apply: wipe_hit; vm_compute; reflexivity
  | |- wipe _ _ _ _ = _ => etransitivity; [apply: wipe_miss; vm_compute; reflexivity|]
  | |- ?st _ _ = _ =>
      first [reflexivity|eassumption
            |match goal with H : frame _ _ st |- _ => etransitivity; [apply: H; vm_compute; reflexivity|] end]
  end.
Ltac lk := repeat lk1.
(** [fr] proves a frame. *)
Ltac fr1 :=
  first [eassumption
        |reflexivity
        |apply: frame_refl
        |eapply frame_upd; [vm_compute; reflexivity|]
        |eapply frame_renew; [vm_compute; reflexivity|]
        |match goal with H : frame _ _ ?st |- frame _ _ ?st => eapply frame_trans; [|exact H|]; [vm_compute; reflexivity|] end].
Ltac fr := repeat fr1.
(** One step of a method. *)
Ltac st1 :=
  lazymatch goal with
  | |- sim _ (bind (bind _ _) _) _ _ => rewrite bind_bind
  | |- sim _ (bind (Ok _) _) _ _ => rewrite bind_Ok; cbv beta
  | |- sim _ _ (bnd (setv _ _ _) _ _) _ => apply: sim_set
  | |- sim _ _ (bnd (renew _) _ _) _ => eapply sim_skip; [reflexivity|cbv beta]
  | |- sim _ _ (bnd (geta _ _ _) _ _) _ => eapply sim_get; [lk; fail|reflexivity|cbv beta]
  | |- sim _ (bind _ _) (bnd (lift _) _ _) _ => eapply sim_lift; [fr; fail|intros ? ?; cbv beta]
  | |- sim _ _ (bnd (bnd _ _) _ _) _ => rewrite bnd_assoc
  end.
Ltac steps := repeat st1.

Section Methods.
Variable F : rcfType.
Local Notation nd := (nd F).
Local Notation obj := (obj F).
Local Open Scope string_scope.

(** ** DifferentiableCholesky *)

(** The cached index arrays are those of [diff_data_initialized]. *)
Definition cache_ok (c : owner) (st : obj) : Prop :=
  st c "diff_data_initialized" = None \/
  exists n, [/\ st c "diff_data_initialized" = Some (VN F n), st c "ni_range" = Some (VR F (iota 0 n)) &
                st c "ni_tril_indices" = Some (VI F (tril_indices n))].

Definition cache_keys (c : owner) : seq pat := [:: (c, "ni_range"); (c, "ni_tril_indices"); (c, "diff_data_initialized")].

Lemma owner_ne c o : owner_eqb c o = false -> forall a b, owner_eqb c o && String.eqb a b = false.
Proof. by move=> ->. Qed.

Lemma cache_eq c st st' : cache_ok c st -> st' c "diff_data_initialized" = st c "diff_data_initialized" ->
  st' c "ni_range" = st c "ni_range" -> st' c "ni_tril_indices" = st c "ni_tril_indices" -> cache_ok c st'.
Proof. by rewrite /cache_ok => H -> -> ->. Qed.

(** Whatever was cached, the index arrays are those of [ni] afterwards. *)
Lemma initialize_ok c ni st : cache_ok c st -> ni != 0%N -> exists st', [/\ initialize_diff_data c ni st = (Ok tt, st'),
  [/\ st' c "diff_data_initialized" = Some (VN F ni), st' c "ni_range" = Some (VR F (iota 0 ni)) &
                st' c "ni_tril_indices" = Some (VI F (tril_indices ni))] & frame (cache_keys c) st st'].
Proof.
move=> C N; rewrite /initialize_diff_data /get_initialized /bnd.
have Hn : forall n, n != ni -> exists st', [/\ (if n == ni then ret tt else let! _ := setv c "ni_range" (VR F (iota 0 ni)) in
      let! _ := setv c "ni_tril_indices" (VI F (tril_indices ni)) in setv c "diff_data_initialized" (VN F ni)) st = (Ok tt, st'),
  [/\ st' c "diff_data_initialized" = Some (VN F ni), st' c "ni_range" = Some (VR F (iota 0 ni)) &
                st' c "ni_tril_indices" = Some (VI F (tril_indices ni))] & frame (cache_keys c) st st'].
  move=> n /negbTE ->; eexists; split; first reflexivity.
    by split; rewrite /upd owner_eqxx.
  by case: (c); fr.
case: C => [->|[n [H1 H2 H3]]]; first by apply: Hn; rewrite eq_sym.
rewrite H1 /lift /=.
case E: (n == ni); last by move: (Hn n); rewrite E; apply.
by move/eqP: E => <-; exists st; split.
Qed.

Lemma AL_ofE ni (S : nd) : AL_of (tril_indices ni) (iota 0 ni) ni S = nd_AL ni S.
Proof. by []. Qed.

Lemma ch_call_sim c (Q : nd) (st : obj) : sim (fun st' => st' = st) (nd_chol Q) (ch_call c Q st) (fun (a b : nd) st' => b = a /\ st' = upd st c "S" (VA a)).
Proof.
rewrite /nd_chol /ch_call /bnd /lift; case E: (nd_cholesky Q) => [L|e] //=.
by rewrite /geta /bnd /getv upd_hit ?owner_eqxx.
Qed.

Definition ch_diff_keys (c : owner) : seq pat :=
  cache_keys c ++ [:: (c, "dQL_dq"); (c, "dS_dq"); (c, "AL"); (c, "ALI")].

(** What [diff] leaves behind. *)
Definition chd_mem (c : owner) (k : nchol F) (st : obj) : Prop :=
  [/\ st c "ALI" = Some (VA (nc_ALI k)), st c "dQL_dq" = Some (VA (nc_dQL k)) & st c "dS_dq" = Some (VA (nc_dS k))].

Lemma ch_diff_sim c (S dQ : nd) st : st c "S" = Some (VA S) -> cache_ok c st -> last 0%N (shape S) != 0%N ->
  sim (frame (ch_diff_keys c) st) (nd_chol_diff S dQ) (ch_diff c dQ st)
    (fun a b st' => [/\ b = nc_dS a, chd_mem c a st', cache_ok c st' & frame (ch_diff_keys c) st st']).
Proof.
move=> HS C N; have [st1 [E [H1 H2 H3] Hf]] := initialize_ok C N.
rewrite /nd_chol_diff /ch_diff; case: c HS C E H1 H2 H3 Hf => HS C E H1 H2 H3 Hf.
all: eapply sim_get; [exact HS|reflexivity|].
all: eapply sim_skip; [exact E|].
all: steps.
all: apply: sim_ok; split; [by []|split; lk|right; eexists; split; lk|fr].
Qed.

Lemma ch_diff2_sim c (S d2Q : nd) k st : st c "S" = Some (VA S) -> chd_mem c k st -> cache_ok c st -> last 0%N (shape S) != 0%N ->
  sim (frame (cache_keys c) st) (nd_chol_diff2 S k d2Q) (ch_diff2 c d2Q st)
    (fun a b st' => [/\ b = a, cache_ok c st' & frame (cache_keys c) st st']).
Proof.
move=> HS [M1 M2 M3] C N; have [st1 [E [H1 H2 H3] Hf]] := initialize_ok C N.
rewrite /nd_chol_diff2 /ch_diff2; case: c HS C E H1 H2 H3 Hf M1 M2 M3 => HS C E H1 H2 H3 Hf M1 M2 M3.
all: eapply sim_get; [exact HS|reflexivity|].
all: eapply sim_skip; [exact E|].
all: steps.
all: apply: sim_ok; split; [by []|right; eexists; split; lk|fr].
Qed.

Ltac cch := match goal with H : cache_ok ?c _ |- cache_ok ?c _ => apply: (cache_eq H); lk; fail end.

(** ** CholeskyUnscentedTransform *)

(** The two transforms and their [cholesky]. *)
Definition wired (o c : owner) : Prop := (o = PUt /\ c = PCh) \/ (o = CUt /\ c = CCh).

(** What [__init__] binds, and the cache. *)
Definition ut_ok (o c : owner) (ni : nat) (kappa : F) (st : obj) : Prop :=
  [/\ st o "ni" = Some (VN F ni), st o "kappa" = Some (VF kappa), st o "nsigma" = Some (VN F (nsigma ni kappa)),
      st o "weights" = Some (VA (nd_weights ni kappa)) & st o "cholesky" = Some (VO F c) /\ cache_ok c st].

(** What [transform], [transform_diff] and [transform_diff2] leave behind. *)
Definition ut_mem (o c : owner) (u : nut F) (st : obj) : Prop :=
  [/\ st c "S" = Some (VA (nu_S u)), st o "isigma" = Some (VA (nu_isigma u)), st o "idev" = Some (VA (nu_idev u)) &
      st o "odev" = Some (VA (nu_odev u))].
Definition utd_mem (o c : owner) (v : nutd F) (st : obj) : Prop :=
  [/\ chd_mem c (nv_chol v) st, st o "df_di" = Some (VA (nv_df_di v)), st o "didev_dq" = Some (VA (nv_didev v)),
      st o "disigma_dq" = Some (VA (nv_disigma v)) & st o "dodev_dq" = Some (VA (nv_dodev v))].
Definition utd2_mem (o : owner) (w : nutd2 F) (st : obj) : Prop :=
  st o "d2idev_dq2" = Some (VA (nw_d2idev w)) /\ st o "d2odev_dq2" = Some (VA (nw_d2odev w)).

(** The attributes that [transform], [transform_diff] and [transform_diff2] bind. *)
Definition ut_keys (o c : owner) : seq pat :=
  [:: (c, "S"); (o, "isigma"); (o, "idev"); (o, "osigma"); (o, "odev"); (o, "o"); (o, "Po")].
Definition utd_keys (o c : owner) : seq pat :=
  ch_diff_keys c ++ [:: (o, "df_di"); (o, "didev_dq"); (o, "disigma_dq"); (o, "dodev_dq"); (o, "do_dq"); (o, "dPo_dq")].
Definition utd2_keys (o c : owner) : seq pat :=
  cache_keys c ++ [:: (o, "d2idev_dq2"); (o, "d2odev_dq2")].

(** Facts about attributes outside a frame persist. *)
Lemma ut_ok_frame o c ni kappa ps st st' : frame ps st st' -> ut_ok o c ni kappa st ->
  all (fun k => ~~ touched ps k.1 k.2) ([:: (o, "ni"); (o, "kappa"); (o, "nsigma"); (o, "weights"); (o, "cholesky")] ++ cache_keys c) ->
  ut_ok o c ni kappa st'.
Proof.
move=> H [H1 H2 H3 H4 [H5 H6]] /= /and5P [/negbTE T1 /negbTE T2 /negbTE T3 /negbTE T4 /and5P [/negbTE T5 /negbTE T6 /negbTE T7 /negbTE T8 _]].
by split; rewrite ?H //; split; rewrite ?H //; apply: (cache_eq H6); rewrite H.
Qed.
Lemma ut_ok_frame_cache o c ni kappa ps st st' : frame ps st st' -> ut_ok o c ni kappa st -> cache_ok c st' ->
  all (fun k => ~~ touched ps k.1 k.2) [:: (o, "ni"); (o, "kappa"); (o, "nsigma"); (o, "weights"); (o, "cholesky")] ->
  ut_ok o c ni kappa st'.
Proof.
move=> H [H1 H2 H3 H4 [H5 H6]] Hc /= /and5P [/negbTE T1 /negbTE T2 /negbTE T3 /negbTE T4 /andP [/negbTE T5 _]].
by split; rewrite ?H //; split; rewrite ?H.
Qed.
Lemma ut_mem_frame o c u ps st st' : frame ps st st' -> ut_mem o c u st ->
  all (fun k => ~~ touched ps k.1 k.2) [:: (c, "S"); (o, "isigma"); (o, "idev"); (o, "odev")] -> ut_mem o c u st'.
Proof.
move=> H [H1 H2 H3 H4] /= /and5P [/negbTE T1 /negbTE T2 /negbTE T3 /negbTE T4 _].
by split; rewrite H.
Qed.
Lemma chd_mem_frame c k ps st st' : frame ps st st' -> chd_mem c k st ->
  all (fun k => ~~ touched ps k.1 k.2) [:: (c, "ALI"); (c, "dQL_dq"); (c, "dS_dq")] -> chd_mem c k st'.
Proof.
move=> H [H1 H2 H3] /= /and4P [/negbTE T1 /negbTE T2 /negbTE T3 _].
by split; rewrite H.
Qed.
Lemma utd_mem_frame o c v ps st st' : frame ps st st' -> utd_mem o c v st ->
  all (fun k => ~~ touched ps k.1 k.2) [:: (c, "ALI"); (c, "dQL_dq"); (c, "dS_dq"); (o, "df_di"); (o, "didev_dq"); (o, "disigma_dq"); (o, "dodev_dq")] ->
  utd_mem o c v st'.
Proof.
move=> H [H1 H2 H3 H4 H5] /= /and5P [T1 T2 T3 /negbTE T4 /and4P [/negbTE T5 /negbTE T6 /negbTE T7 _]].
by split; rewrite ?H //; apply: (chd_mem_frame H H1); rewrite /= T1 T2 T3.
Qed.

(** A function passed to a transform: it only reads the filter's attributes. *)
Definition reads (st : obj) (fm : nd -> met F nd) (f : nd -> res nd) : Prop :=
  forall X st', (forall a, st' Self a = st Self a) -> fm X st' = (f X, st').

Lemma sim_reads C D (E : obj -> Prop) st fm f X (h : nd -> res C) (g : nd -> met F D) st1 P : reads st fm f ->
  (forall a, st1 Self a = st Self a) -> E st1 -> (forall a, f X = Ok a -> sim E (h a) (g a st1) P) ->
  sim E (bind (f X) h) (bnd (fm X) g st1) P.
Proof.
by move=> R A HE H; rewrite /bnd R //; case Ef: (f X) => [a|e] /=; [apply: H|split].
Qed.

Lemma sigma_points_sim o c ni kappa i Pi st : wired o c -> ut_ok o c ni kappa st ->
  sim (frame (ut_keys o c) st) (nd_sigma_points ni kappa (@nd_chol F) i Pi) (ut_sigma_points o i Pi st)
    (fun a b st' => [/\ b = a.2, st' c "S" = Some (VA a.1.1), st' o "idev" = Some (VA a.1.2), st' o "isigma" = Some (VA a.2) &
                        frame [:: (c, "S"); (o, "isigma"); (o, "idev")] st st']).
Proof.
move=> W [H1 H2 H3 H4 [H5 H6]]; rewrite /nd_sigma_points /ut_sigma_points /ut_sqrt.
case: W => -[? ?]; subst o c; steps.
all: eapply sim_call; [eapply ch_call_sim|intros ? ->; fr|intros Sq ? ? ? [-> ->]; cbv beta].
all: steps; apply: sim_ok; split; try reflexivity; try lk; fr.
Qed.

Lemma transform_sim o c ni kappa i Pi fm f st : wired o c -> ut_ok o c ni kappa st -> reads st fm f ->
  sim (frame (ut_keys o c) st) (nd_transform ni kappa (@nd_chol F) i Pi f) (ut_transform o i Pi fm st)
    (fun a b st' => [/\ b = (nu_o a, nu_Po a), ut_mem o c a st' & frame (ut_keys o c) st st']).
Proof.
move=> W U R; have [H1 H2 H3 H4 [H5 H6]] := U.
have Sg := sigma_points_sim i Pi W U.
rewrite /nd_transform /ut_transform.
case: W => -[? ?]; subst o c.
all: eapply sim_call; [eapply Sg|intros ? ?; fr|move=> [[Sq idev] isigma] ? st1 _ [/= -> M1 M2 M3 Hf]; cbv beta].
all: steps.
all: eapply (sim_reads R); [by move=> a; apply: Hf|fr|intros ? ?; cbv beta].
all: steps; apply: sim_ok; split; [reflexivity|split; lk|fr].
Qed.

Lemma sigma_points_diff_sim o c ni kappa u di dPi st : wired o c -> ut_ok o c ni kappa st -> ut_mem o c u st ->
  last 0%N (shape (nu_S u)) != 0%N ->
  sim (frame (utd_keys o c) st)
    (let* k := nd_chol_diff (nu_S u) (nd_scale (ni%:R + kappa) dPi) in
     let* p := nd_sigma_points_diff ni kappa (nc_dS k) di in Ok (k, p))
    (ut_sigma_points_diff o di dPi st)
    (fun a b st' => [/\ b = a.2.2, chd_mem c a.1 st' /\ cache_ok c st', st' o "didev_dq" = Some (VA a.2.1), st' o "disigma_dq" = Some (VA a.2.2) &
                        frame (ch_diff_keys c ++ [:: (o, "didev_dq"); (o, "disigma_dq")]) st st']).
Proof.
move=> W [H1 H2 H3 H4 [H5 H6]] [M1 M2 M3 M4] N; rewrite /ut_sigma_points_diff /ut_sqrt_diff.
have Cd := ch_diff_sim (nd_scale (ni%:R + kappa) dPi) M1 H6 N.
case: W => -[? ?]; subst o c; steps.
all: eapply sim_call; [eapply Cd|intros ? ?; fr|move=> k ? st1 _ [-> [K1 K2 K3] Kc Kf]; cbv beta].
all: rewrite /nd_sigma_points_diff.
all: steps.
all: apply: sim_ok; split; [reflexivity| |lk|lk|fr].
all: split; [split; lk|cch].
Qed.

Lemma sigma_points_diff2_sim o c ni kappa u v d2i d2Pi st : wired o c -> ut_ok o c ni kappa st -> ut_mem o c u st -> utd_mem o c v st ->
  last 0%N (shape (nu_S u)) != 0%N ->
  sim (frame (utd2_keys o c) st)
    (let* d2S := nd_chol_diff2 (nu_S u) (nv_chol v) (nd_scale (ni%:R + kappa) d2Pi) in nd_sigma_points_diff ni kappa d2S d2i)
    (ut_sigma_points_diff2 o d2i d2Pi st)
    (fun a b st' => [/\ b = a.2, cache_ok c st', st' o "d2idev_dq2" = Some (VA a.1) &
                        frame (cache_keys c ++ [:: (o, "d2idev_dq2")]) st st']).
Proof.
move=> W [H1 H2 H3 H4 [H5 H6]] [M1 M2 M3 M4] [V1 V2 V3 V4 V5] N; rewrite /ut_sigma_points_diff2 /ut_sqrt_diff2.
have Cd := ch_diff2_sim (nd_scale (ni%:R + kappa) d2Pi) M1 V1 H6 N.
case: W => -[? ?]; subst o c; steps.
all: eapply sim_call; [eapply Cd|intros ? ?; fr|move=> k ? st1 _ [-> Kc Kf]; cbv beta].
all: rewrite /nd_sigma_points_diff.
all: steps.
all: apply: sim_ok; split; [reflexivity| |lk|fr].
all: cch.
Qed.

Lemma transform_diff_sim o c ni kappa u fqm fq fim fi di dPi st : wired o c -> ut_ok o c ni kappa st -> ut_mem o c u st ->
  last 0%N (shape (nu_S u)) != 0%N -> reads st fqm fq -> reads st fim fi ->
  sim (frame (utd_keys o c) st) (nd_transform_diff ni kappa u fq fi di dPi) (ut_transform_diff o fqm fim di dPi st)
    (fun a b st' => [/\ b = (nv_do a, nv_dPo a), utd_mem o c a st', cache_ok c st' & frame (utd_keys o c) st st']).
Proof.
move=> W U M N Rq Ri; have [H1 H2 H3 H4 [H5 H6]] := U; have [M1 M2 M3 M4] := M.
rewrite /nd_transform_diff /ut_transform_diff.
case: (W) => -[? ?]; subst o c; steps.
all: eapply (sim_reads Ri); [by []|fr|intros dfdi ?; cbv beta].
all: steps.
all: set st0 := upd st _ _ _.
all: have F0 : frame [:: (PUt, "df_di"); (CUt, "df_di")] st st0 by rewrite /st0; fr.
all: have Sg := sigma_points_diff_sim di dPi W (ut_ok_frame F0 U isT) (ut_mem_frame F0 M isT) N.
all: eapply sim_call2; [exact Sg|intros ? ?; rewrite /st0; fr|move=> k [didev disigma] ? st1 _ _ [/= -> [[K1 K2 K3] Kc] K4 K5 Kf]; cbv beta].
all: eapply (sim_reads Rq); [move=> x0; rewrite Kf // F0 //|rewrite /st0 in Kf *; fr|intros D ?; cbv beta].
all: rewrite /st0 in Kf F0.
all: steps.
all: apply: sim_ok; split; [reflexivity|split; [split; lk|lk..]|cch|fr].
Qed.

Lemma transform_diff2_sim o c ni kappa u v gqm gq gim gi gxm gx d2i d2Pi st : wired o c -> ut_ok o c ni kappa st -> ut_mem o c u st ->
  utd_mem o c v st -> last 0%N (shape (nu_S u)) != 0%N -> reads st gqm gq -> reads st gim gi -> reads st gxm gx ->
  sim (frame (utd2_keys o c) st) (nd_transform_diff2 ni kappa u v gq gi gx d2i d2Pi) (ut_transform_diff2 o gqm gim gxm d2i d2Pi st)
    (fun a b st' => [/\ b = (nw_d2o a, nw_d2Po a), utd2_mem o a st', cache_ok c st' & frame (utd2_keys o c) st st']).
Proof.
move=> W U M V N Rq Ri Rx; have [H1 H2 H3 H4 [H5 H6]] := U; have [M1 M2 M3 M4] := M; have [[V1 V2 V3] V4 V5 V6 V7] := V.
have Sg := sigma_points_diff2_sim d2i d2Pi W U M V N.
rewrite /nd_transform_diff2 /ut_transform_diff2.
case: (W) => -[? ?]; subst o c; steps.
all: rewrite -bind_bind.
all: eapply sim_call; [exact Sg|intros ? ?; fr|move=> [d2idev d2isigma] ? st1 _ [/= -> Kc K1 Kf]; cbv beta].
all: eapply (sim_reads Rx); [by move=> x0; rewrite Kf|fr|intros dxq ?; cbv beta]; steps.
all: eapply (sim_reads Rq); [by move=> x0; rewrite Kf|fr|intros dqq ?; cbv beta]; steps.
all: eapply (sim_reads Ri); [by move=> x0; rewrite Kf|fr|intros dxx ?; cbv beta]; steps.
all: apply: sim_ok; split; [reflexivity|split; lk|cch|fr].
Qed.

Lemma crosscov_sim o c ni kappa u st : wired o c -> ut_ok o c ni kappa st -> ut_mem o c u st ->
  ut_crosscov o st = (nd_crosscov ni kappa u, st).
Proof.
move=> W [H1 H2 H3 H4 _] [M1 M2 M3 M4].
by rewrite /ut_crosscov /geta /bnd /getv M3 /= M4 /= H4.
Qed.
Lemma sim_same A (r : res A) (m : met F A) st :
  sim (fun st' => st' = st) r (m st) (fun a b st' => b = a /\ st' = st) -> m st = (r, st).
Proof. by rewrite /sim; case: r => [a|e]; case: (m st) => [[b|e'] st'] // [-> ->]. Qed.
Lemma bind_ret A (r : res A) : bind r Ok = r. Proof. by case: r. Qed.
Lemma crosscov_diff_sim o c ni kappa u v st : wired o c -> ut_ok o c ni kappa st -> ut_mem o c u st -> utd_mem o c v st ->
  ut_crosscov_diff o st = (nd_crosscov_diff ni kappa u v, st).
Proof.
move=> W [H1 H2 H3 H4 _] [M1 M2 M3 M4] [_ V2 V3 V4 V5]; apply: sim_same.
rewrite /ut_crosscov_diff /nd_crosscov_diff; steps.
by rewrite /sim /lift; case: (nd_iadd _ _).
Qed.
Lemma crosscov_diff2_sim o c ni kappa u v w st : wired o c -> ut_ok o c ni kappa st -> ut_mem o c u st -> utd_mem o c v st -> utd2_mem o w st ->
  ut_crosscov_diff2 o st = (nd_crosscov_diff2 ni kappa u v w, st).
Proof.
move=> W [H1 H2 H3 H4 _] [M1 M2 M3 M4] [_ V2 V3 V4 V5] [W1 W2]; apply: sim_same.
rewrite /ut_crosscov_diff2 /nd_crosscov_diff2; steps.
by rewrite /sim /lift; case: (nd_iadd _ _).
Qed.
End Methods.
