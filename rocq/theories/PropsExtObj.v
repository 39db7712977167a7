(** C88: the extended filter as an object.  Whatever methods are called on an
    instance, in any order and with the exceptions caught, only the attributes
    listed in [changing] are ever bound anew: the likelihood and the
    derivatives keep their initial values, and the attributes that the
    prediction-error methods wait for are never set.  The loops of base.py
    return the arrays, or raise the exceptions, stated below: [filter] and
    [smooth] those of [NdKalModel], the others nothing of use. *)
From Coq Require Import String Ascii.
From Verif Require Import Py.
From mathcomp Require Import all_ssreflect all_algebra.
From Verif Require Import KalModel NpModel NdKalModel ObjModel ObjLemmas ObjShape ObjFilterLemmas ObjLoopLemmas PropsObj ExtObjModel ExtObjLemmas.
Set Implicit Arguments.
Unset Strict Implicit.
Unset Printing Implicit Defensive.
Import Order.TTheory GRing.Theory Num.Theory.
Local Open Scope ring_scope.

Section Props.
Variable F : rcfType.
Local Notation nd := (nd F).
Local Notation obj := (obj F).
Variables (dm : ndmodel F) (log : F -> F).
Notation md := (nm_md dm).
Local Open Scope string_scope.

(** The time index, mean and covariance the object holds. *)
Definition holds (s : nstate F) (st : obj) : Prop :=
  [/\ st Self "k" = Some (VN F (ns_k s)), st Self "x" = Some (VA (ns_x s)) & st Self "Px" = Some (VA (ns_P s))].

(** One step of a method that is to return a given outcome. *)
Lemma get_eq A B (as_ : val F -> res A) o a (g : A -> met F B) st v x r : st o a = Some v -> as_ v = Ok x -> g x st = r ->
  bnd (geta as_ o a) g st = r.
Proof. by rewrite /geta /bnd /getv => -> /= ->. Qed.
Lemma set_eq B o a v (g : unit -> met F B) st r : g tt (upd st o a v) = r -> bnd (setv o a v) g st = r.
Proof. by []. Qed.
Ltac step_eq := repeat first [eapply get_eq; [lk; fail|reflexivity|cbv beta] | eapply set_eq; cbv beta].

(** ** One prediction and one correction *)

Definition pkeys : seq pat := [seq (Self, a) | a <- [:: "Pxf"; "prev_x"; "prev_Px"; "k"; "x"; "Px"; "df_dx"]].
Definition ckeys : seq pat := [seq (Self, a) | a <- [:: "active"; "prev_x"; "prev_Px"; "e"; "x"; "Px"; "Pxh"; "Py"; "PyI"; "K"]].

Lemma ex_predict_sim s st : holds s st ->
  sim (frame pkeys st) (nd_ekf_predict md s) (ex_predict dm st)
    (fun a b st' => [/\ b = (ns_x a.2, ns_P a.2), st' Self "Pxf" = Some (VA a.1), holds a.2 st',
                        st' Self "prev_x" = Some (VA (ns_x s)) /\ st' Self "prev_Px" = Some (VA (ns_P s)) & frame pkeys st st']).
Proof.
move=> [A1 A2 A3]; rewrite /nd_ekf_predict /ex_predict; steps.
by apply: sim_ok; split; [reflexivity|lk|split; lk|split; lk|fr].
Qed.

Lemma ex_correct_sim s y st : holds s st ->
  sim (frame [:: (Self, "active")] st) (nd_ekf_correct md s y) (ex_correct dm y st)
    (fun a b st' => [/\ b = (ns_x a.2, ns_P a.2), holds a.2 st', st' Self "active" = Some (VB F (nd_active y)) & frame ckeys st st']).
Proof.
move=> [A1 A2 A3]; rewrite /nd_ekf_correct /ex_correct /nd_corrected; steps.
case: (all id (nm_mask y)); first by steps; apply: sim_ok; split; [reflexivity|split; lk|lk|fr].
by steps; apply: sim_ok; split; [reflexivity|split; lk|lk|fr].
Qed.

(** ** Any calls *)

Variable i : initial F.
(** The instance as base.py:18-66 leaves it. *)
Definition made : obj := (base_init i (@no_attrs F)).2.

(** The attributes that a call may bind. *)
Definition changing : seq string :=
  [:: "k"; "x"; "Px"; "Pxf"; "prev_x"; "prev_Px"; "df_dx"; "df_dq"; "d2f_dx_dq"; "d2f_dx2"; "dQ_dq"; "dQ_dx";
      "active"; "e"; "Pxh"; "Py"; "PyI"; "K"].
Definition wkeys : seq pat := [seq (Self, a) | a <- changing].

Definition kind (a : string) (v : val F) : Prop :=
  if String.eqb a "k" then exists n, v = VN F n else if String.eqb a "active" then exists b, v = VB F b else exists A, v = VA A.
Definition J (st : obj) : Prop :=
  [/\ frame wkeys made st, (forall a v, touched wkeys Self a -> st Self a = Some v -> kind a v) &
      [/\ st Self "k" <> None, st Self "x" <> None & st Self "Px" <> None]].

Definition keeps A (m : met F A) : Prop := forall st, J st -> J (m st).2.
Lemma keeps_bnd A B (m : met F A) (g : A -> met F B) : keeps m -> (forall a, keeps (g a)) -> keeps (bnd m g).
Proof. by move=> Hm Hg st /Hm; rewrite /bnd; case: (m st) => [[a|e] st'] //= H; apply: Hg. Qed.
Lemma keeps_ret A (a : A) : keeps (ret a). Proof. by []. Qed.
Lemma keeps_lift A (r : res A) : keeps (lift r). Proof. by []. Qed.
Lemma keeps_get A (as_ : val F -> res A) o a : keeps (geta as_ o a).
Proof. by move=> st H; rewrite /geta /bnd /getv; case: (st o a). Qed.
Lemma keeps_set a v : touched wkeys Self a = true -> kind a v -> keeps (setv Self a v).
Proof.
move=> Ha Hv st [H1 H2 [H3 H4 H5]]; split.
- by apply: frame_upd.
- move=> b w Hb; rewrite /setv /upd; cbn [fst snd owner_eqb andb]; case E: (String.eqb a b); last by move=> Ew; apply: (H2 _ _ Hb Ew).
  by move=> [<-]; move/eqbP: E => <-.
- by split; rewrite /setv /upd /=; case: (String.eqb a _).
Qed.
Lemma keeps_if A (b : bool) (m1 m2 : met F A) : keeps m1 -> keeps m2 -> keeps (if b then m1 else m2). Proof. by case: b. Qed.
Lemma keeps_for_in l body : (forall k, keeps (body k)) -> keeps (for_in l body).
Proof. by move=> H; elim: l => [|k l IH]; [exact: keeps_ret|apply: keeps_bnd=> //]. Qed.
Lemma keeps_for_list A l (body : nat -> met F A) : (forall k, keeps (body k)) -> keeps (for_list l body).
Proof. by move=> H; elim: l => [|k l IH]; [exact: keeps_ret|do 2![apply: keeps_bnd=> // ?]]. Qed.
Ltac kp1 :=
  lazymatch goal with
  | |- keeps (bnd _ _) => apply: keeps_bnd; [|intro]; cbv beta
  | |- keeps (ret _) => exact: keeps_ret
  | |- keeps (lift _) => exact: keeps_lift
  | |- keeps (geta _ _ _) => exact: keeps_get
  | |- keeps (setv _ _ _) => apply: keeps_set; [vm_compute; reflexivity|by rewrite /kind /=; eexists]
  | |- keeps (if _ then _ else _) => apply: keeps_if
  end.
Ltac kp := repeat kp1.

Lemma keeps_predict : keeps (ex_predict dm). Proof. by rewrite /ex_predict; kp. Qed.
Lemma keeps_correct y : keeps (ex_correct dm y). Proof. by rewrite /ex_correct; kp. Qed.
Lemma keeps_prediction_diff : keeps (ex_prediction_diff dm). Proof. by rewrite /ex_prediction_diff; kp. Qed.
Lemma keeps_prediction_diff2 : keeps (@ex_prediction_diff2 F). Proof. by rewrite /ex_prediction_diff2; kp. Qed.
Lemma keeps_crosscov : keeps (@ex_prediction_crosscov F). Proof. by rewrite /ex_prediction_crosscov; kp. Qed.
Lemma keeps_correction_diff : keeps (@ex_correction_diff F). Proof. by rewrite /ex_correction_diff /if_active; kp. Qed.
Lemma keeps_correction_diff2 : keeps (@ex_correction_diff2 F). Proof. by rewrite /ex_correction_diff2 /if_active; kp. Qed.
Lemma keeps_likelihood_diff2 : keeps (@ex_likelihood_diff2 F). Proof. by rewrite /ex_likelihood_diff2 /if_active; kp. Qed.

(** What a method does that starts with [if not np.any(self.active): return]
    and then needs an attribute that is never set. *)
Definition stuck (st : obj) : res unit :=
  match st Self "active" with Some (VB b) => if has id b then Err AttributeError else Ok tt | _ => Err AttributeError end.

Lemma never a st : J st -> touched wkeys Self a = false -> made Self a = None -> st Self a = None.
Proof. by move=> [H _ _] T <-; apply: H. Qed.
Ltac nv a := have : _ Self a = None by [apply: never; [eassumption|vm_compute; reflexivity|vm_compute; reflexivity]].

Lemma kindA a st : J st -> touched wkeys Self a = true -> kind a = (fun v => exists A, v = VA A) -> array_or_none st a.
Proof. by move=> [_ H _] T K; rewrite /array_or_none; case E: (st Self a) => [v|]; [right|left=> //]; have := H _ _ T E; rewrite K => -[A ->]; exists A. Qed.

Lemma stuck_gen (m : met F unit) st : J st -> m st = (Err AttributeError, st) -> if_active m st = (stuck st, st).
Proof.
move=> [_ H _] Hm; rewrite /if_active /stuck /geta /bnd /getv; case E: (st Self "active") => [v|] //.
by have [b ->] := H _ _ (erefl : touched wkeys Self "active") E; rewrite /lift /=; case: (has id b).
Qed.
Ltac arr a := match goal with H : J _ |- _ => have := @kindA a _ H erefl erefl; case=> [->|[? ->]]; [reflexivity|]; cbv beta iota zeta; cbn [lift asA] end.

Lemma stuck_update st : J st -> ex_update_likelihood log st = (stuck st, st).
Proof.
move=> H; apply: stuck_gen => //; rewrite /geta /bnd /getv.
by rewrite (never H (a := "PyC") erefl erefl).
Qed.
Lemma stuck_diff st : J st -> ex_likelihood_diff st = (stuck st, st).
Proof.
move=> H; apply: stuck_gen => //; rewrite /geta /bnd /getv; arr "e"; arr "PyI".
by rewrite (never H (a := "de_dq") erefl erefl).
Qed.
Lemma stuck_diff2 st : J st -> ex_likelihood_diff2 st = (stuck st, st).
Proof.
move=> H; apply: stuck_gen => //; rewrite /geta /bnd /getv; arr "e"; arr "PyI".
by rewrite (never H (a := "de_dq") erefl erefl).
Qed.
Lemma stuck_correction st : J st -> ex_correction_diff2 st = (stuck st, st).
Proof.
move=> H; apply: stuck_gen => //; rewrite /geta /bnd /getv; arr "K"; arr "PyI".
by rewrite (never H (a := "dK_dq") erefl erefl).
Qed.
Lemma keeps_update : keeps (ex_update_likelihood log). Proof. by move=> st H; rewrite stuck_update. Qed.
Lemma keeps_diff : keeps (@ex_likelihood_diff F). Proof. by move=> st H; rewrite stuck_diff. Qed.

Lemma J_call st c : J st -> J (after_call dm log st c).
Proof.
case: c => [||||y||||||ys|ys|ys|ys|ys] /=.
- exact: keeps_predict.
- exact: keeps_prediction_diff.
- exact: keeps_prediction_diff2.
- exact: keeps_crosscov.
- exact: keeps_correct.
- exact: keeps_correction_diff.
- exact: keeps_correction_diff2.
- exact: keeps_update.
- exact: keeps_diff.
- exact: keeps_likelihood_diff2.
- apply: keeps_for_list => k; apply: keeps_bnd; [exact: keeps_correct|intro; apply: keeps_bnd; [|intro; exact: keeps_ret]].
  by apply: keeps_if; [apply: keeps_bnd; [exact: keeps_predict|intro; exact: keeps_ret]|exact: keeps_ret].
- rewrite /dt_smooth; apply: keeps_bnd; [exact: keeps_lift|intro; apply: keeps_bnd; [|intro; exact: keeps_lift]].
  apply: keeps_for_list => k; apply: keeps_bnd; [exact: keeps_correct|intro; apply: keeps_if; last exact: keeps_ret].
  by apply: keeps_bnd; [exact: keeps_predict|intro; apply: keeps_bnd; [exact: keeps_crosscov|intro; exact: keeps_ret]].
- apply: keeps_bnd; [|intro; exact: keeps_get].
  apply: keeps_for_in => k; apply: keeps_bnd; [exact: keeps_correct|intro; apply: keeps_bnd; [exact: keeps_update|intro; apply: keeps_if; last exact: keeps_ret]].
  by apply: keeps_bnd; [exact: keeps_predict|intro; exact: keeps_ret].
- apply: keeps_bnd; [|intro; exact: keeps_get].
  apply: keeps_for_in => k; apply: keeps_bnd; [exact: keeps_correct|intro; apply: keeps_bnd; [exact: keeps_correction_diff|intro]].
  apply: keeps_bnd; [exact: keeps_update|intro; apply: keeps_bnd; [exact: keeps_diff|intro; apply: keeps_if; last exact: keeps_ret]].
  by apply: keeps_bnd; [exact: keeps_predict|intro; exact: keeps_prediction_diff].
- apply: keeps_bnd; [|intro; exact: keeps_get].
  apply: keeps_for_in => k; apply: keeps_bnd; [exact: keeps_correct|intro; apply: keeps_bnd; [exact: keeps_correction_diff|intro]].
  apply: keeps_bnd; [exact: keeps_correction_diff2|intro; apply: keeps_bnd; [exact: keeps_update|intro; apply: keeps_bnd; [exact: keeps_diff|intro]]].
  apply: keeps_bnd; [exact: keeps_likelihood_diff2|intro; apply: keeps_if; last exact: keeps_ret].
  by apply: keeps_bnd; [exact: keeps_predict|intro; apply: keeps_bnd; [exact: keeps_prediction_diff|intro; exact: keeps_prediction_diff2]].
Qed.

Lemma touched_In a : touched wkeys Self a -> List.In a changing.
Proof.
have : all (fun b => ~~ String.eqb b "*") changing by [].
rewrite /touched /wkeys; elim: changing => [//|b l IH] /= /andP [Hb Hl] /orP [|H]; last by right; apply: IH.
by rewrite /hits /= (negbTE Hb) /= => /eqbP; left.
Qed.
Lemma J_made : J made.
Proof.
split=> // a v /touched_In; rewrite /changing /=.
repeat match goal with |- (_ \/ _) -> _ => case; [move=> <-|] end=> //.
all: by move=> [<-]; rewrite /kind /=; eexists.
Qed.
Lemma J_after cs : J (after dm log cs made).
Proof. by rewrite /after; elim: cs made J_made => [//|c cs IH] st H /=; apply: IH; apply: J_call. Qed.

Section Any.
Variable cs : seq (call F).
Local Notation st := (after dm log cs made).

(** Nothing else is ever bound. *)
Theorem C88_changing o a : ~ (o = Self /\ List.In a changing) -> st o a = made o a.
Proof.
move=> H; have [Hf _ _] := J_after cs; apply: Hf; apply/negbTE/negP => T; apply: H.
have E : o = Self by move: T; rewrite /touched /wkeys has_map; case: o.
by split=> //; apply: touched_In; rewrite -E.
Qed.
Corollary C88_kept :
  [/\ st Self "L" = Some (VA (i_L i)), st Self "dL_dq" = Some (VA (i_dL i)) & st Self "d2L_dq2" = Some (VA (i_d2L i))] /\
  [/\ st Self "dx_dq" = Some (VA (i_dx i)), st Self "dPx_dq" = Some (VA (i_dPx i)), st Self "d2x_dq2" = Some (VA (i_d2x i)) &
      st Self "d2Px_dq2" = Some (VA (i_d2Px i))].
Proof. by split; split; rewrite C88_changing //; move=> [_ H]; move: H; rewrite /changing /=; repeat match goal with |- (_ \/ _) -> _ => case; [by []|] end. Qed.

(** A time index, a mean and a covariance are always there. *)
Theorem C88_state : exists s, holds s st.
Proof.
have [_ K [H1 H2 H3]] := J_after cs.
case E1: (st Self "k") H1 => [v1|//] _; have [n E4] := K _ _ (erefl : touched wkeys Self "k") E1.
case E2: (st Self "x") H2 => [v2|//] _; have [x E5] := K _ _ (erefl : touched wkeys Self "x") E2.
case E3: (st Self "Px") H3 => [v3|//] _; have [P E6] := K _ _ (erefl : touched wkeys Self "Px") E3.
by exists (NS n x P); split; rewrite /= ?E1 ?E2 ?E3 ?E4 ?E5 ?E6.
Qed.

(** The methods of the prediction-error loops. *)
Theorem C88_stuck :
  [/\ ex_update_likelihood log st = (stuck st, st), ex_likelihood_diff st = (stuck st, st), ex_likelihood_diff2 st = (stuck st, st),
      ex_correction_diff2 st = (stuck st, st) &
      ex_correction_diff st = ((if st Self "active" is Some _ then Ok tt else Err AttributeError), st)].
Proof.
have H := J_after cs; split; [exact: stuck_update|exact: stuck_diff|exact: stuck_diff2|exact: stuck_correction|].
have [_ K _] := H; rewrite /ex_correction_diff /if_active /geta /bnd /getv; case E: (st Self "active") => [v|] //.
by have [b ->] := K _ _ (erefl : touched wkeys Self "active") E; rewrite /lift /=; case: (has id b).
Qed.
Theorem C88_prediction_diff :
  ex_prediction_diff2 st = (Err AttributeError, st) /\
  (if [&& st Self "prev_x", st Self "prev_Px" & st Self "Pxf"] then (ex_prediction_diff dm st).1 = Err NameError
   else ex_prediction_diff dm st = (Err AttributeError, st)).
Proof.
have H := J_after cs; have [s [E1 E2 E3]] := C88_state; have [_ [D1 D2 D3 D4]] := C88_kept; split.
  rewrite /ex_prediction_diff2 /geta /bnd /getv E1 /=; arr "prev_x"; arr "prev_Px".
  by rewrite (never H (a := "prev_dx_dq") erefl erefl).
rewrite /ex_prediction_diff /geta /bnd /getv E1 /=.
have := kindA H (a := "prev_x") erefl erefl; case=> [->|[A1 ->]] //=.
have := kindA H (a := "prev_Px") erefl erefl; case=> [->|[A2 ->]] //=.
rewrite D1 /= D2 /=.
by have := kindA H (a := "Pxf") erefl erefl; case=> [->|[A3 ->]].
Qed.
End Any.

(** ** The loops *)

Local Notation ekf := (nd_ekf md).
Local Notation cls := (ex_class dm log).

Lemma ekf_cor s y st : holds s st ->
  sim (@ever F) (n_correct ekf s y) (m_correct cls y st) (fun a b st' => b = (ns_x a.1, ns_P a.1) /\ holds a.1 st').
Proof.
move=> H; have := ex_correct_sim y H; rewrite /sim /=; case: (nd_ekf_correct md s y) => [[o s1]|e]; case: (ex_correct dm y st) => [[b|e'] st'] //=.
  by move=> [-> H1 _ _].
by case.
Qed.
Lemma ekf_pre s st : holds s st ->
  sim (@ever F) (n_predict ekf s) ((let! q := m_predict cls in let! C := m_prediction_crosscov cls in ret (q, C)) st)
    (fun a b st' => b = ((ns_x a.1, ns_P a.1), a.2) /\ holds a.1 st').
Proof.
move=> H; have := ex_predict_sim H; rewrite /sim /= /bnd; case: (nd_ekf_predict md s) => [[C s1]|e]; case: (ex_predict dm st) => [[b|e'] st'] //=.
  by move=> [-> H1 H2 _ _]; rewrite /ex_prediction_crosscov /geta /bnd /getv H1.
by case.
Qed.
Lemma ekf_pre1 s st : holds s st ->
  sim (@ever F) (n_predict ekf s) (m_predict cls st) (fun a b st' => holds a.1 st').
Proof.
move=> H; have := ex_predict_sim H; rewrite /sim /=; case: (nd_ekf_predict md s) => [[C s1]|e]; case: (ex_predict dm st) => [[b|e'] st'] //=.
  by case.
by case.
Qed.

Theorem C88_filter s ys st : holds s st ->
  match nd_filter ekf s ys with
  | Ok (l, s') => (dt_filter cls ys st).1 = Ok l /\ holds s' (dt_filter cls ys st).2
  | Err e => (dt_filter cls ys st).1 = Err e
  end.
Proof.
move=> H; have := dt_filter_sim ekf_cor ekf_pre1 ys H; rewrite /sim.
by case: (nd_filter _ _ _) => [[l s']|e]; case: (dt_filter _ _ _) => [[b|e'] st'] //=; [move=> [-> ?]|move=> [->]].
Qed.

Theorem C88_smooth s ys st : holds s st ->
  match nd_smooth ekf s ys with
  | Ok (l, s') => (dt_smooth cls ys st).1 = Ok l /\ holds s' (dt_smooth cls ys st).2
  | Err e => (dt_smooth cls ys st).1 = Err e
  end.
Proof.
case: ys => [//|y ys] Si.
have := dt_forward_sim ekf_cor ekf_pre y ys Si.
have -> : dt_smooth cls (y :: ys) st = (let! fw := dt_smooth_forward cls (y :: ys) in
    lift (ob_smooth_backward [seq p.2 | p <- fw] [seq p.1 | p <- fw] (rev (iota 1 ((size ys).+1 - 1))))) st by [].
rewrite /nd_smooth; move: (dt_smooth_forward cls (y :: ys)) => rest; rewrite /bnd.
case: (n_correct ekf s y) => [[s1 c1]|e]; cbn [bind fst snd]; last by case: (rest st) => [[?|?] ?] //= [->].
case Ef: (nd_forward ekf s1 ys) => [[l s2]|e]; cbn [bind fst snd]; last by case: (rest st) => [[?|?] ?] //= [->].
case: (rest st) => [[b|e'] st'] //; rewrite /sim /lift; cbn [fst snd] => -[-> H].
have Hz : size (rcons [seq Some (nt_pred t, nt_Pxf t) | t <- l] None) = size (((ns_x s1, ns_P s1) :: [seq nt_est t | t <- l])) by rewrite size_rcons /= !size_map.
have /= Hl := nd_forward_size Ef; rewrite -Hl subn1 [(size l).+1.-1]/=.
have U1 : unzip1 (efw_of (ns_x s1, ns_P s1) l) = (ns_x s1, ns_P s1) :: [seq nt_est t | t <- l] by apply: unzip1_zip; rewrite Hz.
have U2 : unzip2 (efw_of (ns_x s1, ns_P s1) l) = rcons [seq Some (nt_pred t, nt_Pxf t) | t <- l] None by apply: unzip2_zip; rewrite Hz.
rewrite -/(unzip1 _) -/(unzip2 _) U1 U2.
have := smooth_backward_val l (ns_x s1, ns_P s1) [::] [::] (erefl : size (@nil (nd * nd)) = size (@nil (option ((nd * nd) * nd)))).
rewrite !cats0 !cat0s => ->.
by case: (nd_backward _ _) => [r|e] //=.
Qed.

(** [pem_merit]: the initial value when everything is masked and nothing
    raises; otherwise the exception of a filter that ends with the first
    measurement that is not masked, or [AttributeError] there. *)
Definition masked (y : nmeas F) : bool := all id (nm_mask y).

Lemma stuck_masked y st : st Self "active" = Some (VB F (nd_active y)) -> stuck st = if masked y then Ok tt else Err AttributeError.
Proof. by rewrite /stuck => ->; rewrite any_active /masked; case: (all id _). Qed.
Lemma correct_masked (s : nstate F) y : masked y -> nd_ekf_correct md s y = Ok (None, s).
Proof. by rewrite /nd_ekf_correct /masked => ->. Qed.

Lemma merit_over s ys st : J st -> holds s st ->
  (over (fun y (b : bool) => let! _ := ex_correct dm y in let! _ := ex_update_likelihood log in when b (let! _ := ex_predict dm in ret tt)) ys st).1 =
  let n := find (fun y => ~~ masked y) ys in
  match nd_filter ekf s (take n.+1 ys) with
  | Err e => Err e
  | Ok _ => if (n < size ys)%N then Err AttributeError else Ok tt
  end.
Proof.
elim: ys s st => [//|y ys IH] s st Hj Hs.
rewrite overS; cbn zeta; cbn [find].
have := ex_correct_sim y Hs; have := keeps_correct y Hj; rewrite {1 2}/bnd.
case Em: (masked y); cbn [negb].
  rewrite (correct_masked s Em) /sim; case: (ex_correct dm y st) => [[b|e] st1] //= Hj1 [_ H1 Ha _].
  rewrite {1}/bnd stuck_update // (stuck_masked Ha) Em.
  set n := find _ ys in IH *.
  rewrite (correct_masked s Em) /=.
  case: ys n IH => [|y' ys] n IH; first by [].
  cbn [size ltn leq when take].
  have := ex_predict_sim H1; have := keeps_predict Hj1; rewrite /bnd /=.
  case: (nd_ekf_predict md s) => [[C s2]|e]; case: (ex_predict dm st1) => [[b2|e2] st2] //= Hj2; last by case=> ->.
  move=> [_ _ H2 _ _]; rewrite (IH _ _ Hj2 H2) /=.
  by match goal with |- match ?m with _ => _ end = _ => case: m end.
have -> : take 1 (y :: ys) = [:: y] by rewrite /= take0.
cbn [nd_filter n_correct nd_ekf].
case: (nd_ekf_correct md s y) => [[o s1]|e]; case: (ex_correct dm y st) => [[b|e'] st1] //= Hj1; last by case=> ->.
by move=> [_ H1 Ha _]; rewrite /bnd stuck_update // (stuck_masked Ha) Em.
Qed.

Theorem C88_merit cs s ys (st := after dm log cs made) : holds s st ->
  let n := find (fun y => ~~ masked y) ys in
  (dt_pem_merit cls ys st).1 =
    match nd_filter ekf s (take n.+1 ys) with
    | Err e => Err e
    | Ok _ => if (n < size ys)%N then Err AttributeError else Ok (i_L i)
    end.
Proof.
move=> Hs; have Hj := J_after cs; rewrite /dt_pem_merit.
have E := for_in_over (fun y (b : bool) => let! _ := ex_correct dm y in let! _ := ex_update_likelihood log in when b (let! _ := ex_predict dm in ret tt)) st (drop0 ys).
have M := merit_over ys Hj Hs.
have [[HL _ _] _] := C88_kept (rcons cs (CMerit ys)).
rewrite /after foldl_rcons -/(after _ _ _ _) -/st /= /dt_pem_merit in HL.
rewrite /bnd in HL *; rewrite /= in E *; rewrite E in HL *.
move: M HL; case: (over _ ys st) => [[[]|e] st'] /=; last by case: (nd_filter _ _ _) => [?|?]; [case: ifP => // _ [->]|move=> [->]].
move=> M; rewrite /geta /bnd /getv => HL.
have -> : st' Self "L" = Some (VA (i_L i)) by move: HL; case E1: (st' Self "L") => [v|] /=; rewrite E1.
by case: (nd_filter _ _ _) M => [?|//] /=; case: ifP.
Qed.

(** The bodies of the two other loops, [d2] for the one of [pem_hessian]. *)
Definition pem_body (d2 : bool) (y : nmeas F) (b : bool) : met F unit :=
  if d2 then
    let! _ := ex_correct dm y in
    let! _ := @ex_correction_diff F in
    let! _ := @ex_correction_diff2 F in
    let! _ := ex_update_likelihood log in
    let! _ := @ex_likelihood_diff F in
    let! _ := @ex_likelihood_diff2 F in
    when b (let! _ := ex_predict dm in let! _ := ex_prediction_diff dm in @ex_prediction_diff2 F)
  else
    let! _ := ex_correct dm y in
    let! _ := @ex_correction_diff F in
    let! _ := ex_update_likelihood log in
    let! _ := @ex_likelihood_diff F in
    when b (let! _ := ex_predict dm in ex_prediction_diff dm).

(** Calls with exceptions that are the same whatever was called before. *)
Lemma body_outcome d2 s y b st : J st -> holds s st ->
  (pem_body d2 y b st).1 =
  match nd_ekf_correct md s y with
  | Err e => Err e
  | Ok _ => if ~~ masked y then Err AttributeError else if b then
              match nd_ekf_predict md s with Err e => Err e | Ok _ => Err NameError end else Ok tt
  end.
Proof.
move=> Hj Hs; have := ex_correct_sim y Hs; have := keeps_correct y Hj.
have Hd st1 : J st1 -> st1 Self "active" = Some (VB F (nd_active y)) -> @ex_correction_diff F st1 = (Ok tt, st1).
  by move=> _ Ha; rewrite /ex_correction_diff /if_active /geta /bnd /getv Ha /=; case: (has id _).
have Hp st1 : J st1 -> holds s st1 -> (ex_predict dm st1).1 = match nd_ekf_predict md s with Err e => Err e | Ok p => Ok (ns_x p.2, ns_P p.2) end.
  move=> _ H1; have := ex_predict_sim H1; rewrite /sim; case: (nd_ekf_predict md s) => [p|e]; case: (ex_predict dm st1) => [[q|e'] st2] //=.
    by case=> ->.
  by case=> ->.
have Hq st1 p st2 : J st1 -> holds s st1 -> ex_predict dm st1 = (Ok p, st2) -> (ex_prediction_diff dm st2).1 = Err NameError.
  move=> Hj1 H1 E; have Hj2 := keeps_predict Hj1; rewrite E /= in Hj2.
  have := ex_predict_sim H1; rewrite E /sim; case: (nd_ekf_predict md s) => [q|//] [_ C1 [K1 _ _] [C2 C3] Hf].
  have D1 : st2 Self "dx_dq" = Some (VA (i_dx i)) by have [Hm _ _] := Hj2; rewrite Hm.
  have D2 : st2 Self "dPx_dq" = Some (VA (i_dPx i)) by have [Hm _ _] := Hj2; rewrite Hm.
  by rewrite /ex_prediction_diff /geta /bnd /getv K1 /= C2 /= C3 /= D1 /= D2 /= C1.
rewrite /pem_body; case: d2; rewrite {1}/bnd.
all: case Ec: (nd_ekf_correct md s y) => [[o s1]|e]; case: (ex_correct dm y st) => [[q|e'] st1] //= Hj1; try by case=> ->.
all: move=> [_ H1 Ha _]; rewrite {1}/bnd (Hd _ Hj1 Ha).
all: case Em: (masked y); last by rewrite /= /bnd ?stuck_correction ?stuck_update // !(stuck_masked Ha) Em.
all: have Es : s1 = s by move: Ec; rewrite (correct_masked s Em) => -[].
all: rewrite Es in H1; rewrite /= /bnd ?stuck_correction ?(stuck_masked Ha) ?Em // ?stuck_update ?(stuck_masked Ha) ?Em // ?stuck_diff ?(stuck_masked Ha) ?Em // ?stuck_diff2 ?(stuck_masked Ha) ?Em //.
all: case: b => //=; have := Hp _ Hj1 H1; have := Hq st1; case: (ex_predict dm st1) => [[p|e] st2] Hq1 /=.
all: case: (nd_ekf_predict md s) => [r|e'] //.
all: try by move=> [->].
all: by have := Hq1 _ _ Hj1 H1 erefl; case: (ex_prediction_diff dm st2) => [[?|?] ?] //= [->].
Qed.

(** The outcome of [pem_gradient] and [pem_hessian], [v] being the initial
    value of the result: decided by the first measurement. *)
Definition pem_outcome (v : nd) (s : nstate F) (ys : seq (nmeas F)) : res nd :=
  match ys with
  | [::] => Ok v
  | y :: ys' =>
      match nd_ekf_correct md s y with
      | Err e => Err e
      | Ok _ =>
          if ~~ masked y then Err AttributeError
          else if ys' is [::] then Ok v
          else match nd_ekf_predict md s with Err e => Err e | Ok _ => Err NameError end
      end
  end.

Lemma over_outcome d2 v s ys st : J st -> holds s st ->
  (over (pem_body d2) ys st).1 = match pem_outcome v s ys with Ok _ => Ok tt | Err e => Err e end.
Proof.
case: ys => [//|y ys] Hj Hs; rewrite overS /bnd; have := body_outcome d2 y (0 < size ys)%N Hj Hs.
rewrite /pem_outcome; case: (pem_body d2 y _ st) => [[[]|e] st'] /=; case: (nd_ekf_correct md s y) => [_|e'] //=.
  case: (masked y) => //=; case: ys => //= ? ?; by case: (nd_ekf_predict md s).
  case: (masked y) => /=; last by move=> ->.
  by case: ys => //= ? ?; case: (nd_ekf_predict md s) => ? ->.
Qed.
Lemma last_read a v (r : res unit * obj) (o : res nd) :
  r.1 = match o with Ok _ => Ok tt | Err e => Err e end -> (forall w, o = Ok w -> w = v) ->
  (let (r', st') := r in match r' with Ok _ => geta (@asA F) Self a st' | Err e => (Err e, st') end).2 Self a = Some (VA v) ->
  (let (r', st') := r in match r' with Ok _ => geta (@asA F) Self a st' | Err e => (Err e, st') end).1 = o.
Proof.
case: r => [[[]|e] st'] /=; case: o => [w|e'] //=; last by move=> [->].
move=> _ H; rewrite (H w erefl) /geta /bnd /getv; case E: (st' Self a) => [x|] /=; by rewrite E // => -[->].
Qed.
Lemma outcome_value v s ys w : pem_outcome v s ys = Ok w -> w = v.
Proof.
case: ys => [[]//|y ys] /=; case: (nd_ekf_correct md s y) => //= _; case: (masked y) => //=.
by case: ys => [[]//|? ?]; case: (nd_ekf_predict md s).
Qed.

Theorem C88_gradient cs s ys (st := after dm log cs made) : holds s st ->
  (dt_pem_gradient cls ys st).1 = pem_outcome (i_dL i) s ys.
Proof.
move=> Hs; have Hj := J_after cs.
have E := for_in_over (pem_body false) st (drop0 ys).
have [[_ HL _] _] := C88_kept (rcons cs (CGradient ys)).
rewrite /after foldl_rcons -/(after _ _ _ _) -/st /= /dt_pem_gradient in HL.
rewrite /dt_pem_gradient /bnd in HL *; rewrite /= in E *; rewrite E in HL *.
by apply: last_read HL; [apply: over_outcome|apply: outcome_value].
Qed.
Theorem C88_hessian cs s ys (st := after dm log cs made) : holds s st ->
  (dt_pem_hessian cls ys st).1 = pem_outcome (i_d2L i) s ys.
Proof.
move=> Hs; have Hj := J_after cs.
have E := for_in_over (pem_body true) st (drop0 ys).
have [[_ _ HL] _] := C88_kept (rcons cs (CHessian ys)).
rewrite /after foldl_rcons -/(after _ _ _ _) -/st /= /dt_pem_hessian in HL.
rewrite /dt_pem_hessian /bnd in HL *; rewrite /= in E *; rewrite E in HL *.
by apply: last_read HL; [apply: over_outcome|apply: outcome_value].
Qed.

(** ** Exceptions *)

(** A [correct] that raises binds [active] only; a [predict] that raises in
    [Pf + Q] has advanced the time and the mean but not the covariance, and
    the cross-covariance is that of the failed prediction. *)
Theorem C88_correct_raises s y st e st' : holds s st -> ex_correct dm y st = (Err e, st') ->
  forall o a, ~ (o = Self /\ a = "active") -> st' o a = st o a.
Proof.
move=> Hs E o a N; have := ex_correct_sim y Hs; rewrite E /sim; case: (nd_ekf_correct md s y) => [//|e'] [_ Hf].
apply: Hf; apply/negbTE/negP => H; apply: N; move: H; rewrite /touched; case: o => //=.
by rewrite orbF /hits [_.1]/= [_.2]/= => /eqbP <-.
Qed.
Theorem C88_predict_raises s st (df_dx := nm_df_dx md (ns_k s) (ns_x s)) : holds s st ->
  match (let* Pxf := einsum "...yi,...iz" [:: ns_P s; df_dx] in let* Pf := einsum "...iy,...iz" [:: df_dx; Pxf] in Ok (Pxf, Pf)) with
  | Err e => ex_predict dm st = (Err e, st)
  | Ok (Pxf, Pf) =>
      forall e, nd_add Pf (nm_Q md (ns_k s) (ns_x s)) = Err e -> exists st', ex_predict dm st = (Err e, st') /\
        [/\ holds (NS (ns_k s).+1 (nm_f md (ns_k s) (ns_x s)) (ns_P s)) st', st' Self "Pxf" = Some (VA Pxf),
            st' Self "prev_x" = Some (VA (ns_x s)), st' Self "prev_Px" = Some (VA (ns_P s)) & st' Self "df_dx" = st Self "df_dx"]
  end.
Proof.
move=> [A1 A2 A3]; rewrite /ex_predict.
case E1: (einsum "...yi,...iz" _) => [Pxf|e] /=; last by step_eq; rewrite /bnd /lift -/df_dx E1.
case E2: (einsum "...iy,...iz" _) => [Pf|e] /=; last by step_eq; rewrite /bnd /lift -/df_dx E1 E2.
move=> e E3; eexists; split.
  step_eq; rewrite -/df_dx E1 {1}/bnd {1}/lift E2 {1}/bnd {1}/lift.
  by step_eq; rewrite E3 {1}/bnd /lift; reflexivity.
by split; [split; lk|lk|lk|lk|lk].
Qed.
End Props.
