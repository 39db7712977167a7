(** C79: what the filters do to arrays in memory. *)
From Coq Require Import String.
From Verif Require Import Py.
From mathcomp Require Import all_ssreflect all_algebra.
From Verif Require Import KalModel NpModel NdKalModel AliasModel AliasLemmas.
Set Implicit Arguments.
Unset Strict Implicit.
Unset Printing Implicit Defensive.
Import Order.TTheory GRing.Theory Num.Theory.
Local Open Scope ring_scope.

Section Spec.
Variable F : rcfType.
Local Notation nd := (nd F).
Local Notation heap := (heap F).
Local Notation hfilter := (hfilter F).

(** ** Specification *)

(** The arrays that a filter updates in place: by [pem_gradient], and with
    [second] by [pem_hessian]. *)
Definition diff_arrays (second : bool) (o : hfilter) : seq loc :=
  [:: hf_dx o; hf_dP o; hf_dL o] ++ (if second then [:: hf_d2x o; hf_d2P o; hf_d2L o] else [::]).
Definition own (second : bool) (o : hfilter) : seq loc := diff_arrays second o ++ Llocs (hf_L o).

(** They are different arrays, and none of them is the mean or the
    covariance. *)
Record separate (second : bool) (h : heap) (o : hfilter) : Prop := Separate {
  sep_uniq : uniq (own second o);
  sep_in : forall l, l \in own second o -> (l < size h)%N;
  sep_x : (hf_x o < size h)%N /\ hf_x o \notin own second o;
  sep_P : (hf_P o < size h)%N /\ hf_P o \notin own second o;
  sep_L : Lok h (hf_L o) }.

(** The contents of the attributes. *)
Definition grad_view (h : heap) (o : hfilter) : ngstate F :=
  NGS (NS (hf_k o) (at_loc h (hf_x o)) (at_loc h (hf_P o))) (Lview h (hf_L o)) (NDS (at_loc h (hf_dx o)) (at_loc h (hf_dP o))) (at_loc h (hf_dL o)).
Definition hess_view (h : heap) (o : hfilter) : nhstate F :=
  NHS (grad_view h o) (NDS (at_loc h (hf_d2x o)) (at_loc h (hf_d2P o))) (at_loc h (hf_d2L o)).

(** [o'] is the object [o] after a method call: arrays kept or new. *)
Definition kept_or_new (second : bool) (h : heap) (o o' : hfilter) : Prop :=
  forall l, l \in own second o' -> l \in own second o \/ (size h <= l)%N.

(** ** One method after the other *)
Section Loops.
Variables (nx : nat) (m : hmodel F) (log : F -> F) (kp kc : F).
Notation dm := (hm_val m).
Notation md := (nm_md dm).
Hypothesis model_new : forall k X, returns_new (hm_df_dq m k X) (nm_df_dq dm k X).

Lemma runs_unit A B C h (f : mem F A) (r : res B) (g : A -> C) (t : B -> C) Q W :
  runs h f r (fun a b h' => Q (g a) (t b) h') W -> runs h (mbind f (fun a => mret (g a))) (let* b := r in Ok (t b)) Q W.
Proof. by move=> H; apply: runs_bind H _ => a b h' _ H'; apply: runs_ret. Qed.

Lemma runs_mapr A B C h (f : mem F A) (r : res B) (t : B -> C) Q W :
  runs h f r (fun a b h' => Q a (t b) h') W -> runs h f (let* b := r in Ok (t b)) Q W.
Proof. by case: r. Qed.

Lemma own_diff b o l : l \in diff_arrays b o -> l \in own b o.
Proof. by move=> H; rewrite /own (mem_cat l (diff_arrays b o)) H. Qed.
Lemma own_L b o l : l \in Llocs (hf_L o) -> l \in own b o.
Proof. by move=> H; rewrite /own (mem_cat l (diff_arrays b o)) H orbT. Qed.
Lemma diff_not_L b h o l : separate b h o -> l \in diff_arrays b o -> l \notin Llocs (hf_L o).
Proof.
move=> Hs Hl; move: (sep_uniq Hs); rewrite /own (cat_uniq (diff_arrays b o)) => /and3P[_ /hasPn H _].
by apply/negP => /H /=; rewrite Hl.
Qed.
Lemma neq_in (s : seq loc) l l' : l \in s -> l' \notin s -> l' != l.
Proof. by move=> H H'; apply: contra H' => /eqP ->. Qed.


(** The contents of the attributes that matter. *)
Definition view2 (b : bool) (h : heap) (o : hfilter) : option (nd * nd * nd) :=
  if b then Some (at_loc h (hf_d2x o), at_loc h (hf_d2P o), at_loc h (hf_d2L o)) else None.

Lemma sep_diff b h o : separate b h o -> uniq (diff_arrays b o).
Proof. by move=> Hs; move: (sep_uniq Hs); rewrite /own (cat_uniq (diff_arrays b o)) => /and3P[]. Qed.

Lemma sep_write b h o l A : separate b h o -> l \in diff_arrays b o -> separate b (set_nth (zeros F [::]) h l A) o.
Proof.
move=> Hs Hl; have Hl' := sep_in Hs (own_diff Hl).
split; rewrite ?size_set //; [exact: sep_uniq Hs | exact: sep_in Hs | exact: sep_x Hs | exact: sep_P Hs |].
have := diff_not_L Hs Hl; move: (sep_L Hs); rewrite /Lok; case: (hf_L o) => // l0 /=.
by rewrite at_set inE [l0 == _]eq_sym => HL /negbTE ->.
Qed.
Lemma Lview_write b h o l A : separate b h o -> l \in diff_arrays b o -> Lview (set_nth (zeros F [::]) h l A) (hf_L o) = Lview h (hf_L o).
Proof.
move=> Hs Hl; have := diff_not_L Hs Hl; case: (hf_L o) => // l0 /=.
by rewrite at_set inE [l0 == _]eq_sym => /negbTE ->.
Qed.
Lemma state_write b h o l A : separate b h o -> l \in diff_arrays b o -> state_of (set_nth (zeros F [::]) h l A) o = state_of h o.
Proof.
move=> Hs Hl; rewrite /state_of !at_set.
by rewrite (negbTE (neq_in (own_diff Hl) (proj2 (sep_x Hs)))) (negbTE (neq_in (own_diff Hl) (proj2 (sep_P Hs)))).
Qed.

Lemma in_dx b o : hf_dx o \in diff_arrays b o. Proof. by rewrite inE eqxx. Qed.
Lemma in_dP b o : hf_dP o \in diff_arrays b o. Proof. by rewrite !inE eqxx orbT. Qed.
Lemma in_dL b o : hf_dL o \in diff_arrays b o. Proof. by rewrite !inE eqxx !orbT. Qed.
Lemma in_d2x o : hf_d2x o \in diff_arrays true o. Proof. by rewrite !inE eqxx !orbT. Qed.
Lemma in_d2P o : hf_d2P o \in diff_arrays true o. Proof. by rewrite !inE eqxx !orbT. Qed.
Lemma in_d2L o : hf_d2L o \in diff_arrays true o. Proof. by rewrite !inE eqxx !orbT. Qed.
Hint Resolve in_dx in_dP in_dL in_d2x in_d2P in_d2L own_diff : core.

(** Pairwise different arrays, as rewriting facts. *)
Lemma ne1 b h o : separate b h o ->
  ((hf_dx o == hf_dP o) = false) * ((hf_dP o == hf_dx o) = false) * ((hf_dx o == hf_dL o) = false) * ((hf_dL o == hf_dx o) = false)
  * ((hf_dP o == hf_dL o) = false) * ((hf_dL o == hf_dP o) = false).
Proof.
move=> /sep_diff; rewrite /diff_arrays cat_uniq => /and3P[H _ _]; move: H => /=.
rewrite !inE !negb_or !andbT => /andP[/andP[/negbTE H1 /negbTE H2] /negbTE H3].
by rewrite ![_ == hf_dx o]eq_sym [hf_dL o == _]eq_sym.
Qed.
Lemma ne2 h o : separate true h o ->
  ((hf_d2x o == hf_dx o) = false) * ((hf_d2x o == hf_dP o) = false) * ((hf_d2x o == hf_dL o) = false)
  * ((hf_d2P o == hf_dx o) = false) * ((hf_d2P o == hf_dP o) = false) * ((hf_d2P o == hf_dL o) = false)
  * ((hf_d2L o == hf_dx o) = false) * ((hf_d2L o == hf_dP o) = false) * ((hf_d2L o == hf_dL o) = false).
Proof.
move=> /sep_diff; rewrite /diff_arrays cat_uniq => /and3P[_ H _]; move: H => /=.
by rewrite !inE orbF !negb_or -!andbA => /and5P[/negbTE-> /negbTE-> /negbTE-> /negbTE-> /and5P[/negbTE-> /negbTE-> /negbTE-> /negbTE-> /negbTE->]].
Qed.
Lemma ne3 h o : separate true h o ->
  ((hf_dx o == hf_d2x o) = false) * ((hf_dP o == hf_d2x o) = false) * ((hf_dL o == hf_d2x o) = false)
  * ((hf_dx o == hf_d2P o) = false) * ((hf_dP o == hf_d2P o) = false) * ((hf_dL o == hf_d2P o) = false)
  * ((hf_dx o == hf_d2L o) = false) * ((hf_dP o == hf_d2L o) = false) * ((hf_dL o == hf_d2L o) = false).
Proof. by move=> /ne2 H; rewrite ![hf_dx o == _]eq_sym ![hf_dP o == _]eq_sym ![hf_dL o == _]eq_sym !H. Qed.
Lemma ne4 h o : separate true h o ->
  ((hf_d2x o == hf_d2P o) = false) * ((hf_d2P o == hf_d2x o) = false) * ((hf_d2x o == hf_d2L o) = false) * ((hf_d2L o == hf_d2x o) = false)
  * ((hf_d2P o == hf_d2L o) = false) * ((hf_d2L o == hf_d2P o) = false).
Proof.
move=> /sep_diff; rewrite /diff_arrays cat_uniq => /and3P[_ _ H]; move: H => /=.
rewrite !inE !negb_or !andbT => /andP[/andP[/negbTE H1 /negbTE H2] /negbTE H3].
by rewrite ![_ == hf_d2x o]eq_sym [hf_d2L o == _]eq_sym.
Qed.
(** A new mean and a new covariance. *)
Definition rebound (h : heap) (o : hfilter) (k : nat) : hfilter :=
  HFilter k (size h) (size h).+1 (hf_L o) (hf_dL o) (hf_d2L o) (hf_dx o) (hf_dP o) (hf_d2x o) (hf_d2P o).
Lemma own_rebound b h o k : own b (rebound h o k) = own b o. Proof. by []. Qed.

Lemma rebind_sep b h o k X P : separate b h o -> let h1 := rcons (rcons h X) P in
  [/\ separate b h1 (rebound h o k), forall l, l \in own b o -> at_loc h1 l = at_loc h l & Lview h1 (hf_L o) = Lview h (hf_L o)].
Proof.
move=> Hs h1.
have Hst : step h [::] h1 by apply: step_trans (step_alloc h [::] X) (step_alloc _ [::] P) _.
have Ho l : l \in own b o -> at_loc h1 l = at_loc h l by move=> Hl; apply: (proj2 Hst) => //; exact: (sep_in Hs Hl).
have HL : Lview h1 (hf_L o) = Lview h (hf_L o).
  have HLo := fun l => @own_L b o l; case: (hf_L o) HLo => // l HLo /=.
  by apply: Ho; apply: HLo; rewrite inE.
have Hsz : size h1 = (size h).+2 by rewrite !size_rcons.
have out l : (size h <= l)%N -> l \notin own b o by move=> Hl; apply/negP => /(sep_in Hs); rewrite ltnNge Hl.
split=> //; split; rewrite ?own_rebound ?Hsz /=.
- exact: sep_uniq Hs.
- by move=> l /(sep_in Hs) Hl; rewrite leqW // leqW.
- by split; [exact: leqnSn | exact: out].
- by split; [exact: ltnSn | exact: out].
- by move: (sep_L Hs); rewrite /Lok HL.
Qed.

Lemma view2_same b h h' o o' : (forall l, l \in own b o -> at_loc h' l = at_loc h l) ->
  (b -> [/\ hf_d2x o' = hf_d2x o, hf_d2P o' = hf_d2P o & hf_d2L o' = hf_d2L o]) -> view2 b h' o' = view2 b h o.
Proof. by rewrite /view2; case: b => // H /(_ isT)[-> -> ->]; rewrite !H ?own_diff. Qed.

(** A new log-likelihood. *)
Lemma setL_sep b h o L h' : separate b h o -> step h (Llocs (hf_L o)) h' -> Lok h' L -> all (fun l => l < size h')%N (Llocs L) ->
  (forall l, l \in Llocs L -> l \in Llocs (hf_L o) \/ (size h <= l)%N) ->
  [/\ separate b h' (set_L o L), forall l, l \in diff_arrays b o -> at_loc h' l = at_loc h l & state_of h' o = state_of h o].
Proof.
move=> Hs Hst HL Hin Hnew.
have Hd l : l \in diff_arrays b o -> at_loc h' l = at_loc h l.
  by move=> Hl; apply: (proj2 Hst); [exact: (sep_in Hs (own_diff Hl)) | exact: (diff_not_L Hs Hl)].
have [[Hx1 Hx2] [HP1 HP2]] := (sep_x Hs, sep_P Hs).
have Hle := proj1 Hst.
have out l : (l < size h)%N -> l \notin own b o -> l \notin own b (set_L o L).
  move=> Hl; rewrite /own !(mem_cat l (diff_arrays b _)) !negb_or => /andP[-> Hn] /=.
  by apply/negP => /Hnew[Hl'|]; [rewrite Hl' in Hn | rewrite leqNgt Hl].
split=> //.
- split=> //.
  + rewrite /own (cat_uniq (diff_arrays b _)) (sep_diff Hs : uniq (diff_arrays b (set_L o L))) /=; apply/andP; split; last by case: (L).
    apply/hasPn => l Hl; apply/negP => /= Hl'; case/Hnew: Hl => [|Hl].
      by apply/negP; exact: (diff_not_L Hs Hl').
    by move: (sep_in Hs (own_diff (b := b) (o := o) Hl')); rewrite ltnNge Hl.
  + move=> l; rewrite /own (mem_cat l (diff_arrays b _)) => /orP[Hl|/(allP Hin) //].
    by apply: leq_trans Hle; exact: (sep_in Hs (own_diff (b := b) (o := o) Hl)).
  + by split; [exact: leq_trans Hle | exact: out].
  + by split; [exact: leq_trans Hle | exact: out].
- rewrite /state_of !(proj2 Hst) //; first by apply: contra HP2; exact: own_L.
  by apply: contra Hx2; exact: own_L.
Qed.
(** ** Each method, of a filter with separate arrays *)

Lemma correction_diff_sep b h o s active u c : separate b h o ->
  runs h (h_correction_diff nx m kc s active u c o) (nd_correction_diff nx dm kc s active u c (NDS (at_loc h (hf_dx o)) (at_loc h (hf_dP o))))
    (fun c1 p h' => [/\ c1 = p.1, separate b h' o,
       grad_view h' o = NGS (state_of h o) (Lview h (hf_L o)) p.2 (at_loc h (hf_dL o)) & view2 b h' o = view2 b h o]) (own b o).
Proof.
move=> Hs; have Hne := ne1 Hs.
have HW := (own_diff (in_dx b o), own_diff (in_dP b o)).
have Hr := @correction_diff_runs F nx m h kc s active u c o (own b o) _ (sep_in Hs HW.1) (sep_in Hs HW.2) HW.1 HW.2.
refine (runs_post (Hr _) _); first by rewrite Hne.
move=> c1 p h' _ [-> ->].
have Hs1 := sep_write (nds_x p.2) Hs (in_dx b o).
split=> //; first exact: sep_write.
- rewrite /grad_view -/(state_of _ o) (state_write _ Hs1) // (state_write _ Hs) //.
  by rewrite (Lview_write _ Hs1) // (Lview_write _ Hs) // !at_set !eqxx !Hne; case: (p.2).
- by move: Hs {Hs1}; rewrite /view2; case: (b) => // Hs; rewrite !at_set !(ne2 Hs).
Qed.
Lemma correction_diff2_sep h o s active u c c1 : separate true h o ->
  runs h (h_correction_diff2 nx m kc s active u c c1 o) (nd_correction_diff2 nx dm kc s active u c c1 (NDS (at_loc h (hf_d2x o)) (at_loc h (hf_d2P o))))
    (fun c2 p h' => [/\ c2 = p.1, separate true h' o, grad_view h' o = grad_view h o
       & view2 true h' o = Some (nds_x p.2, nds_P p.2, at_loc h (hf_d2L o))]) (own true o).
Proof.
move=> Hs; have Hne := ne4 Hs; have Hne' := ne3 Hs.
have HW := (own_diff (in_d2x o), own_diff (in_d2P o)).
have Hr := @correction_diff2_runs F nx m h kc s active u c c1 o (own true o) _ (sep_in Hs HW.1) (sep_in Hs HW.2) HW.1 HW.2.
refine (runs_post (Hr _) _); first by rewrite Hne.
move=> c2 p h' _ [-> ->].
have Hs1 := sep_write (nds_x p.2) Hs (in_d2x o).
split=> //; first exact: sep_write.
- rewrite /grad_view -/(state_of _ o) (state_write _ Hs1) // (state_write _ Hs) //.
  by rewrite (Lview_write _ Hs1) // (Lview_write _ Hs) // !at_set !Hne'.
- by rewrite /view2 !at_set !eqxx !Hne.
Qed.

Lemma likelihood_diff_sep b h o c c1 W : separate b h o -> hf_dL o \in W ->
  runs h (h_likelihood_diff c c1 o) (nd_likelihood_diff c c1 (at_loc h (hf_dL o)))
    (fun a p h' => [/\ a = p.1, separate b h' o,
       grad_view h' o = NGS (state_of h o) (Lview h (hf_L o)) (NDS (at_loc h (hf_dx o)) (at_loc h (hf_dP o))) p.2 & view2 b h' o = view2 b h o]) W.
Proof.
move=> Hs HW; have Hne := ne1 Hs.
have Hr := @likelihood_diff_runs F h c c1 o W (sep_in Hs (own_diff (in_dL b o))) HW.
refine (runs_post Hr _) => a p h' _ [-> ->]; split=> //; first exact: sep_write.
- by rewrite /grad_view -/(state_of _ o) (state_write _ Hs) // (Lview_write _ Hs) // !at_set !eqxx !Hne.
- by move: Hs; rewrite /view2; case: (b) => // Hs; rewrite !at_set !(ne2 Hs).
Qed.

Lemma likelihood_diff2_sep h o c c1 c2 ch dPyCD W : separate true h o -> hf_d2L o \in W ->
  runs h (h_likelihood_diff2 c c1 c2 ch dPyCD o) (nd_likelihood_diff2 c c1 c2 ch dPyCD (at_loc h (hf_d2L o)))
    (fun _ D h' => [/\ separate true h' o, grad_view h' o = grad_view h o & view2 true h' o = Some (at_loc h (hf_d2x o), at_loc h (hf_d2P o), D)]) W.
Proof.
move=> Hs HW; have Hne := ne4 Hs; have Hne' := ne3 Hs.
have Hr := @likelihood_diff2_runs F h c c1 c2 ch dPyCD o W (sep_in Hs (own_diff (in_d2L o))) HW.
refine (runs_post Hr _) => a p h' _ ->; split; first exact: sep_write.
- by rewrite /grad_view -/(state_of _ o) (state_write _ Hs) // (Lview_write _ Hs) // !at_set !Hne'.
- by rewrite /view2 !at_set !eqxx !Hne.
Qed.

Lemma update_likelihood_sep b h o c : separate b h o ->
  runs h (h_update_likelihood log (hf_L o) c) (nd_update_likelihood log (Lview h (hf_L o)) (Some c))
    (fun L D h' => [/\ separate b h' (set_L o L), kept_or_new b h o (set_L o L),
       grad_view h' (set_L o L) = NGS (state_of h o) D (NDS (at_loc h (hf_dx o)) (at_loc h (hf_dP o))) (at_loc h (hf_dL o))
       & view2 b h' (set_L o L) = view2 b h o]) (own b o).
Proof.
move=> Hs.
have Hall : all (fun l => l < size h)%N (Llocs (hf_L o)) by apply/allP => l /own_L Hl; exact: (sep_in Hs (Hl b)).
have Hr := runs_sub (@update_likelihood_runs F log h (hf_L o) c (sep_L Hs) Hall) (fun l => @own_L b o l).
refine (runs_post Hr _) => L D h' _ [Hst [-> HL Hin Hnew]].
have [Hs' Hd Hst'] := setL_sep Hs Hst HL Hin Hnew; split=> //.
- move=> l; rewrite /own !(mem_cat l (diff_arrays b _)) => /orP[->|/Hnew[->|]]; [by left| by left; rewrite orbT | by right].
- rewrite /grad_view /= -/(state_of h' o) Hst'.
  by rewrite (Hd _ (in_dx b o)) (Hd _ (in_dP b o)) (Hd _ (in_dL b o)).
- by move: Hd; rewrite /view2; case: (b) => // Hd /=; rewrite !Hd.
Qed.
Lemma correct_sep b h o y : separate b h o ->
  runs h (h_correct nx m kc y o) (nd_ukf_correct nx md kc (@nd_chol F) (state_of h o) y)
    (fun a c h' => [/\ a.1 = c.1, separate b h' a.2, own b a.2 = own b o,
       grad_view h' a.2 = NGS c.2 (Lview h (hf_L o)) (NDS (at_loc h (hf_dx o)) (at_loc h (hf_dP o))) (at_loc h (hf_dL o))
       & [/\ view2 b h' a.2 = view2 b h o, diff_arrays b a.2 = diff_arrays b o & hf_L a.2 = hf_L o]]) (own b o).
Proof.
move=> Hs; have H0 : {subset [::] <= own b o} by [].
have Hr := runs_sub (@correct_runs F nx m h kc y o) H0.
refine (runs_post Hr _) => a c h' _ [_ [-> -> Hm]]; cbn [fst snd].
rewrite /corrected_object /corrected_heap; case: c.1 Hm => [d|] Hm; last by rewrite Hm.
have [H1 H2 H3] := rebind_sep (ns_k c.2) (ns_x c.2) (ns_P c.2) Hs; split=> //.
- rewrite /grad_view; cbn [hf_k hf_x hf_P hf_L hf_dL hf_dx hf_dP]; rewrite at_new1 at_new2 H3 !(H2 _ (own_diff _)) //.
  by case: (c.2).
- by split=> //; apply: view2_same.
Qed.

Lemma grad_correct_runs b h o y : separate b h o ->
  runs h (h_grad_correct nx m log kc y o) (nd_grad_correct nx dm log kc (grad_view h o) y)
    (fun o' g h' => [/\ g = grad_view h' o', separate b h' o', kept_or_new b h o o', diff_arrays b o' = diff_arrays b o
       & view2 b h' o' = view2 b h o]) (own b o).
Proof.
move=> Hs; rewrite /h_grad_correct /nd_grad_correct; cbn [ng_s ng_L ng_d ng_dL grad_view]; cbv zeta; rewrite -/(state_of h o).
apply: runs_state.
refine (runs_bind (correct_sep y Hs) _) => -[d o1] [d' s'] h1 Hst [/= -> Hs1 Hown Hv [Hv2 Hda EL]].
case: d' => [[u c0]|]; last by apply: runs_ret; split=> // l; rewrite Hown; left.
move: (congr1 (@ng_L F) Hv) (congr1 (@ng_d F) Hv) (congr1 (@ng_dL F) Hv) (congr1 (@ng_s F) Hv); cbn [ng_s ng_L ng_d ng_dL grad_view].
move=> <- <- <- Es; rewrite -Hown.
refine (runs_bind (correction_diff_sep _ _ _ _ Hs1) _) => c1 [c1' d2] h2 Hst2 [/= -> Hs2 Hv' Hv2'].
move: (congr1 (@ng_L F) Hv') (congr1 (@ng_d F) Hv') (congr1 (@ng_dL F) Hv') (congr1 (@ng_s F) Hv'); cbn [ng_s ng_L ng_d ng_dL grad_view].
move=> <- Ed <- Es'.
refine (runs_bind (update_likelihood_sep _ Hs2) _) => L D h3 Hst3 [Hs3 Hkn Hv3 Hv23].
move: (congr1 (@ng_L F) Hv3) (congr1 (@ng_d F) Hv3) (congr1 (@ng_dL F) Hv3) (congr1 (@ng_s F) Hv3); cbn [ng_s ng_L ng_d ng_dL grad_view set_L hf_x hf_P hf_k hf_L hf_dL hf_dx hf_dP].
move=> EL3 Ed3 <- Es3.
refine (runs_bind (likelihood_diff_sep (o := set_L o1 L) _ _ Hs3 (W := own b o1) _) _); first exact: own_diff (in_dL b o1).
move=> a [a' dL] h4 Hst4 [/= _ Hs4 Hv4 Hv24].
exists (set_L o1 L), h4; split; [by [] | exact: step_refl | split=> //].
- have -> : s' = state_of h3 (set_L o1 L) by rewrite -Es -[LHS]/(state_of h1 o1) -Es' -[LHS]/(state_of h2 o1) -Es3.
  by rewrite Hv4 Ed3 Ed EL3.
- move=> l /Hkn; rewrite Hown => -[|Hl]; [by left | right].
  by apply: leq_trans Hl; apply: leq_trans (proj1 Hst2); exact: (proj1 Hst).
- by rewrite Hv24 Hv23 Hv2' Hv2.
Qed.
Lemma view2_at h o x P L : view2 true h o = Some (x, P, L) -> [/\ at_loc h (hf_d2x o) = x, at_loc h (hf_d2P o) = P & at_loc h (hf_d2L o) = L].
Proof. by case. Qed.

Lemma hess_correct_runs h o y : separate true h o ->
  runs h (h_hess_correct nx m log kc y o) (nd_hess_correct nx dm log kc (hess_view h o) y)
    (fun o' g h' => [/\ g = hess_view h' o', separate true h' o', kept_or_new true h o o' & diff_arrays true o' = diff_arrays true o]) (own true o).
Proof.
move=> Hs; rewrite /h_hess_correct /nd_hess_correct; cbn [ng_s ng_L ng_d ng_dL grad_view hess_view nh_g nh_d2 nh_d2L]; cbv zeta; rewrite -/(state_of h o).
apply: runs_state.
refine (runs_bind (correct_sep y Hs) _) => -[d o1] [d' s'] h1 Hst [/= -> Hs1 Hown Hv [Hv2 Hda EL]].
have [E1 E2 E3] := view2_at Hv2; rewrite -E1 -E2 -E3.
case: d' => [[u c0]|]; last by apply: runs_ret; split=> //; [rewrite /hess_view Hv | move=> l; rewrite Hown; left].
move: (congr1 (@ng_L F) Hv) (congr1 (@ng_d F) Hv) (congr1 (@ng_dL F) Hv) (congr1 (@ng_s F) Hv); cbn [ng_s ng_L ng_d ng_dL grad_view].
move=> <- <- <- Es; rewrite -Hown.
refine (runs_bind (correction_diff_sep _ _ _ _ Hs1) _) => c1 [c1' d2] h2 Hst2 [/= -> Hs2 Hv' Hv2'].
have [F1 F2 F3] := view2_at Hv2'; rewrite -F1 -F2 -F3.
move: (congr1 (@ng_L F) Hv') (congr1 (@ng_d F) Hv') (congr1 (@ng_dL F) Hv') (congr1 (@ng_s F) Hv'); cbn [ng_s ng_L ng_d ng_dL grad_view].
move=> <- Ed <- Es'.
refine (runs_bind (correction_diff2_sep _ _ _ _ _ Hs2) _) => c2 [c2' dd2] hb Hstb [/= -> Hsb Hvb Hv2b].
have [G1 G2 G3] := view2_at Hv2b; rewrite -G3.
move: (congr1 (@ng_L F) Hvb) (congr1 (@ng_d F) Hvb) (congr1 (@ng_dL F) Hvb) (congr1 (@ng_s F) Hvb); cbn [ng_s ng_L ng_d ng_dL grad_view].
move=> <- Edb <- Esb.
refine (runs_bind (update_likelihood_sep _ Hsb) _) => L D h3 Hst3 [Hs3 Hkn Hv3 Hv23].
have [I1 I2 I3] := view2_at Hv23; rewrite -I3.
move: (congr1 (@ng_L F) Hv3) (congr1 (@ng_d F) Hv3) (congr1 (@ng_dL F) Hv3) (congr1 (@ng_s F) Hv3); cbn [ng_s ng_L ng_d ng_dL grad_view set_L hf_x hf_P hf_k hf_L hf_dL hf_dx hf_dP].
move=> EL3 Ed3 <- Es3.
refine (runs_bind (likelihood_diff_sep (o := set_L o1 L) _ _ Hs3 (W := own true o1) _) _); first exact: own_diff (in_dL true o1).
move=> a [a' dL] h4 Hst4 [/= -> Hs4 Hv4 Hv24].
have [J1 J2 J3] := view2_at Hv24; rewrite -J3.
refine (runs_bind (likelihood_diff2_sep (o := set_L o1 L) _ _ _ _ _ Hs4 (W := own true o1) _) _); first exact: own_diff (in_d2L o1).
move=> [] D2 h5 Hst5 [/= Hs5 Hv5 Hv25].
have [K1 K2 K3] := view2_at Hv25.
exists (set_L o1 L), h5; split; [by [] | exact: step_refl | split=> //].
- have -> : s' = state_of h3 (set_L o1 L) by rewrite -Es -[LHS]/(state_of h1 o1) -Es' -[LHS]/(state_of h2 o1) -[LHS]Esb -[LHS]/(state_of hb o1) -Es3.
  rewrite /hess_view Hv5 Hv4 Ed3 Edb Ed EL3 K1 K2 K3 J1 J2 I1 I2 G1 G2.
  by case: (dd2).
- move=> l /Hkn; rewrite Hown => -[|Hl]; [by left | right].
  apply: leq_trans Hl; apply: leq_trans (proj1 Hstb); apply: leq_trans (proj1 Hst2); exact: (proj1 Hst).
Qed.
(** ** Predictions *)
Definition rediff (o : hfilter) (ldx ldP : loc) : hfilter :=
  HFilter (hf_k o) (hf_x o) (hf_P o) (hf_L o) (hf_dL o) (hf_d2L o) ldx ldP (hf_d2x o) (hf_d2P o).
Definition rediff2 (o : hfilter) (ldx ldP : loc) : hfilter :=
  HFilter (hf_k o) (hf_x o) (hf_P o) (hf_L o) (hf_dL o) (hf_d2L o) (hf_dx o) (hf_dP o) ldx ldP.
Definition rest (b : bool) (o : hfilter) : seq loc := hf_dL o :: (if b then [:: hf_d2x o; hf_d2P o; hf_d2L o] else [::]) ++ Llocs (hf_L o).
Definition rest2 (o : hfilter) : seq loc := [:: hf_dx o; hf_dP o; hf_dL o] ++ hf_d2L o :: Llocs (hf_L o).
Lemma own_rest b o : own b o = hf_dx o :: hf_dP o :: rest b o. Proof. by []. Qed.
Lemma own_rest2 o : perm_eq (own true o) (hf_d2x o :: hf_d2P o :: rest2 o).
Proof. exact: (perm_trans (perm_refl _) (introT permPl (perm_catCA [:: hf_dx o; hf_dP o; hf_dL o] [:: hf_d2x o; hf_d2P o] (hf_d2L o :: Llocs (hf_L o))))). Qed.

Lemma sep_grow b h o o' h' ldx ldP a c R : separate b h o -> step h [::] h' ->
  (size h <= ldx < size h')%N -> (size h <= ldP < size h')%N -> ldx != ldP ->
  perm_eq (own b o') (ldx :: ldP :: R) -> perm_eq (own b o) (a :: c :: R) ->
  hf_x o' = hf_x o -> hf_P o' = hf_P o -> hf_L o' = hf_L o ->
  [/\ separate b h' o', kept_or_new b h o o', Lview h' (hf_L o') = Lview h (hf_L o), state_of h' o = state_of h o
    & forall l, l \in own b o -> at_loc h' l = at_loc h l].
Proof.
move=> Hs Hst /andP[A1 A2] /andP[B1 B2] Hne Hp Hp' Ex EP EL.
have Hle := proj1 Hst.
have HR l : l \in R -> l \in own b o by move=> Hl; rewrite (perm_mem Hp') !inE Hl !orbT.
have Rin l : l \in R -> (l < size h)%N by move=> /HR /(sep_in Hs).
have RU : uniq R by move: (sep_uniq Hs); rewrite (perm_uniq Hp') /= => /and3P[].
have At l : (l < size h)%N -> at_loc h' l = at_loc h l by move=> Hl; apply: (proj2 Hst).
have HL : Lview h' (hf_L o) = Lview h (hf_L o).
  have HLo := fun l => @own_L b o l; case: (hf_L o) HLo => // l HLo /=.
  by apply: At; apply: (sep_in Hs); apply: HLo; rewrite inE.
have [[Hx1 Hx2] [HP1 HP2]] := (sep_x Hs, sep_P Hs).
have out l : (l < size h)%N -> l \notin own b o -> l \notin own b o'.
  move=> Hl Hn; rewrite (perm_mem Hp) !inE !negb_or.
  rewrite !(ltn_eqF (leq_trans Hl _)) //=.
  by apply: contra Hn; exact: HR.
split; rewrite ?EL //.
- split.
  + rewrite (perm_uniq Hp) /= RU inE negb_or Hne /= andbT; apply/andP; split; apply/negP => /Rin; rewrite ltnNge ?A1 ?B1 //.
  + move=> l; rewrite (perm_mem Hp) !inE => /or3P[/eqP->|/eqP->|/Rin Hl] //; exact: leq_trans Hle.
  + by rewrite Ex; split; [exact: leq_trans Hle | exact: out].
  + by rewrite EP; split; [exact: leq_trans Hle | exact: out].
  + by move: (sep_L Hs); rewrite /Lok EL HL.
- by move=> l; rewrite (perm_mem Hp) !inE => /or3P[/eqP->|/eqP->|/HR]; [right|right|left].
- by rewrite /state_of /= !At.
- by move=> l /(sep_in Hs); exact: At.
Qed.

Lemma predict_sep b h o : separate b h o ->
  runs h (h_predict nx m kp o) (nd_ukf_predict nx md kp (@nd_chol F) (state_of h o))
    (fun a c h' => [/\ a = (c.1, rebound h o (ns_k c.2)), separate b h' a.2,
       grad_view h' a.2 = NGS c.2 (Lview h (hf_L o)) (NDS (at_loc h (hf_dx o)) (at_loc h (hf_dP o))) (at_loc h (hf_dL o))
       & view2 b h' a.2 = view2 b h o]) [::].
Proof.
move=> Hs; refine (runs_post (@predict_runs F nx m h kp o) _) => a c h' _ [-> ->]; cbn [fst snd].
have [H1 H2 H3] := rebind_sep (ns_k c.2) (ns_x c.2) (ns_P c.2) Hs; split=> //.
- rewrite /grad_view; cbn [hf_k hf_x hf_P hf_L hf_dL hf_dx hf_dP]; rewrite at_new1 at_new2 H3 !(H2 _ (own_diff _)) //.
  by case: (c.2).
- by apply: view2_same.
Qed.

Lemma prediction_diff_sep b h o s u : separate b h o ->
  runs h (h_prediction_diff nx m kp s u o) (nd_prediction_diff nx dm kp s u (NDS (at_loc h (hf_dx o)) (at_loc h (hf_dP o))))
    (fun a c h' => [/\ a.1 = (c.1, hf_dx o), separate b h' a.2 /\ kept_or_new b h o a.2,
       grad_view h' a.2 = NGS (state_of h o) (Lview h (hf_L o)) c.2 (at_loc h (hf_dL o)),
       view2 b h' a.2 = view2 b h o
       & [/\ hf_dL a.2 = hf_dL o, hf_d2L a.2 = hf_d2L o, at_loc h' (hf_dx o) = at_loc h (hf_dx o)
           & hf_dx o \notin own b a.2 /\ hf_dP o \notin own b a.2]]) [::].
Proof.
move=> Hs; refine (runs_post (@prediction_diff_runs F nx m h kp s u o model_new (sep_in Hs (own_diff (in_dx b o)))) _) => a c h' Hst [ldx [ldP [-> A B C [E1 E2]]]]; cbn [fst snd].
have [H1 H2 H3 H4 H5] := @sep_grow b h o (rediff o ldx ldP) h' ldx ldP (hf_dx o) (hf_dP o) (rest b o) Hs Hst A B C (perm_refl _) (perm_refl _) erefl erefl erefl.
split=> //.
- rewrite /grad_view; cbn [hf_k hf_x hf_P hf_L hf_dL hf_dx hf_dP].
  rewrite H3 E1 E2 (H5 _ (own_diff (in_dL b o))) -H4 /state_of.
  by case: (c.2).
- exact: (view2_same H5).
- split=> //; first exact: (H5 _ (own_diff (in_dx b o))).
  move: (sep_uniq Hs); rewrite !own_rest /= !inE !negb_or => /andP[/andP[_ Ux] /andP[UP _]].
  have [Lx LP] := (sep_in Hs (own_diff (in_dx b o)), sep_in Hs (own_diff (in_dP b o))).
  move/andP: A => [A _]; move/andP: B => [B _].
  by rewrite Ux UP !(ltn_eqF (leq_trans Lx _)) // !(ltn_eqF (leq_trans LP _)).
Qed.
Lemma grad_predict_runs b h o : separate b h o ->
  runs h (h_grad_predict nx m kp o) (nd_grad_predict nx dm kp (grad_view h o))
    (fun o' g h' => [/\ g = grad_view h' o', separate b h' o', kept_or_new b h o o', hf_dL o' = hf_dL o
       & view2 b h' o' = view2 b h o /\ (hf_dx o \notin own b o' /\ hf_dP o \notin own b o')]) [::].
Proof.
move=> Hs; rewrite /h_grad_predict /nd_grad_predict; cbn [ng_s ng_L ng_d ng_dL grad_view]; cbv zeta; rewrite -/(state_of h o).
apply: runs_state.
refine (runs_bind (predict_sep Hs) _) => -[u' o1] [u s'] h1 Hst [E]; cbn [fst snd] in E |- *; case: E => -> Eo Hs1 Hv Hv2; subst o1.
move: (congr1 (@ng_L F) Hv) (congr1 (@ng_d F) Hv) (congr1 (@ng_dL F) Hv) (congr1 (@ng_s F) Hv); cbn [ng_s ng_L ng_d ng_dL grad_view].
set o1 := rebound h o _ in Hs1 Hv2 Hv *; move=> <- <- <- Es.
refine (runs_bind (prediction_diff_sep _ _ Hs1) _) => -[a o2] [v d'] h2 Hst2 [E [Hs2 Hkn] Hv' Hv2' [EL _ _ [Nx NP]]]; cbn [fst snd] in *.
exists o2, h2; split; [by [] | exact: step_refl | split=> //].
- by rewrite Hv' /state_of -Es.
- move=> l /Hkn[|Hl]; [by left | right].
  by apply: leq_trans Hl; exact: (proj1 Hst).
- by rewrite Hv2' Hv2.
Qed.

Lemma prediction_diff2_sep h o s u v prev d : separate true h o -> nds_x d = at_loc h prev ->
  runs h (h_prediction_diff2 nx m kp s u v prev o) (nd_prediction_diff2 nx dm kp s u v d (NDS (at_loc h (hf_d2x o)) (at_loc h (hf_d2P o))))
    (fun o' c h' => [/\ separate true h' o', kept_or_new true h o o', grad_view h' o' = grad_view h o,
        view2 true h' o' = Some (nds_x c, nds_P c, at_loc h (hf_d2L o)) & hf_dL o' = hf_dL o /\ hf_d2L o' = hf_d2L o]) [::].
Proof.
move=> Hs Hd; refine (runs_post (@prediction_diff2_runs F nx m h kp s u v prev d o Hd) _) => o' c h' _ [-> ->].
set h2 := rcons _ _.
have Hst : step h [::] h2 by apply: step_trans (step_alloc h [::] (nds_x c)) (step_alloc _ [::] (nds_P c)) _.
have Hsz : size h2 = (size h).+2 by rewrite !size_rcons.
have A : (size h <= size h < size h2)%N by rewrite Hsz leqnn /= leqnSn.
have B : (size h <= (size h).+1 < size h2)%N by rewrite Hsz leqnSn /=.
have C : size h != (size h).+1 by rewrite ltn_eqF.
have Hp := @own_rest2 (rediff2 o (size h) (size h).+1).
have [H1 H2 H3 H4 H5] := @sep_grow true h o (rediff2 o (size h) (size h).+1) h2 (size h) (size h).+1 (hf_d2x o) (hf_d2P o) (rest2 o) Hs Hst A B C Hp (own_rest2 o) erefl erefl erefl.
split=> //.
- rewrite /grad_view; cbn [hf_k hf_x hf_P hf_L hf_dL hf_dx hf_dP].
  have E := congr1 (@ns_x F) H4; have E' := congr1 (@ns_P F) H4; cbn [state_of ns_x ns_P] in E, E'.
  by rewrite E E' H3 (H5 _ (own_diff (in_dx true o))) (H5 _ (own_diff (in_dP true o))) (H5 _ (own_diff (in_dL true o))).
- rewrite /view2; cbn [hf_d2x hf_d2P hf_d2L].
  by rewrite (H5 _ (own_diff (in_d2L o))) at_new1 at_new2.
Qed.

Lemma hess_predict_runs h o : separate true h o ->
  runs h (h_hess_predict nx m kp o) (nd_hess_predict nx dm kp (hess_view h o))
    (fun o' g h' => [/\ g = hess_view h' o', separate true h' o', kept_or_new true h o o' & hf_dL o' = hf_dL o /\ hf_d2L o' = hf_d2L o]) [::].
Proof.
move=> Hs; rewrite /h_hess_predict /nd_hess_predict; cbn [ng_s ng_L ng_d ng_dL grad_view hess_view nh_g nh_d2 nh_d2L]; cbv zeta; rewrite -/(state_of h o).
apply: runs_state.
refine (runs_bind (predict_sep Hs) _) => -[u' o1] [u s'] h1 Hst [E]; cbn [fst snd] in E |- *; case: E => -> Eo Hs1 Hv Hv2; subst o1.
have [E1 E2 E3] := view2_at Hv2; rewrite -E1 -E2 -E3.
move: (congr1 (@ng_L F) Hv) (congr1 (@ng_d F) Hv) (congr1 (@ng_dL F) Hv) (congr1 (@ng_s F) Hv); cbn [ng_s ng_L ng_d ng_dL grad_view].
set o1 := rebound h o _ in Hs1 Hv2 Hv E1 E2 E3 *; move=> <- <- <- Es.
refine (runs_bind (prediction_diff_sep _ _ Hs1) _) => -[a o2] [v d'] h2 Hst2 [E [Hs2 Hkn] Hv' Hv2' [EL EL2 Ex _]]; cbn [fst snd] in *.
have [G1 G2 G3] := view2_at Hv2'; rewrite E -G1 -G2 -G3; cbn [fst snd].
have Hr := (@prediction_diff2_sep h2 o2 (state_of h o) u v (hf_dx o1) (NDS (at_loc h1 (hf_dx o1)) (at_loc h1 (hf_dP o1))) Hs2 (esym Ex)).
apply: runs_mapr; refine (runs_post Hr _) => o3 c h3 Hst3 [Hs3 Hkn3 Hv3 Hv23 [EL3 EL23]].
have [K1 K2 K3] := view2_at Hv23; split=> //.
- rewrite /hess_view Hv3 Hv' K1 K2 K3 /state_of -Es; by case: (c).
- move=> l /Hkn3[/Hkn[|Hl]|Hl]; [by left | right | right].
    by apply: leq_trans Hl; exact: (proj1 Hst).
  by apply: leq_trans Hl; apply: leq_trans (proj1 Hst2); exact: (proj1 Hst).
- by rewrite EL3 EL23.
Qed.

(** ** The loops *)
Lemma kept_trans b h o h1 o1 o2 : (size h <= size h1)%N -> kept_or_new b h o o1 -> kept_or_new b h1 o1 o2 -> kept_or_new b h o o2.
Proof. by move=> Hle H1 H2 l /H2[/H1//|Hl]; right; exact: leq_trans Hl. Qed.
Lemma kept_within b h o o1 : kept_or_new b h o o1 -> forall l, (l < size h)%N -> l \in own b o1 -> l \in own b o.
Proof. by move=> H l Hl /H[//|]; rewrite leqNgt Hl. Qed.

Lemma grad_loop_runs b ys : forall h o, separate b h o ->
  runs h (h_grad_loop nx m log kp kc o ys) (nd_grad_loop nx dm log kp kc (grad_view h o) ys)
    (fun o' g h' => [/\ g = grad_view h' o', separate b h' o', kept_or_new b h o o', hf_dL o' = hf_dL o & view2 b h' o' = view2 b h o]) (own b o).
Proof.
elim: ys => [|y ys IH] h o Hs; first by apply: runs_ret; split=> // l; left.
cbn [h_grad_loop nd_grad_loop].
refine (runs_bind_new (grad_correct_runs y Hs) _) => o1 g1 h1 Hst1 [-> Hs1 Hkn1 Hda1 Hv1].
have EL1 : hf_dL o1 = hf_dL o by case: (b) Hda1 => /= -[].
exists (own b o1); first exact: kept_within Hkn1.
case: ys IH => [|y' ys] IH; first by apply: runs_ret; split.
have H0 : {subset [::] <= own b o1} by [].
refine (runs_bind_new (runs_sub (grad_predict_runs Hs1) H0) _) => o2 g2 h2 Hst2 [_ [-> Hs2 Hkn2 EL2 [Hv2 _]]].
exists (own b o2); first exact: kept_within Hkn2.
refine (runs_post (IH _ _ Hs2) _) => o3 g3 h3 _ [-> Hs3 Hkn3 EL3 Hv3].
split=> //; last by rewrite Hv3 Hv2 Hv1.
  apply: kept_trans Hkn1 _; first exact: (proj1 Hst1).
  by apply: kept_trans Hkn2 Hkn3; exact: (proj1 Hst2).
by rewrite EL3 EL2.
Qed.

Lemma hess_loop_runs ys : forall h o, separate true h o ->
  runs h (h_hess_loop nx m log kp kc o ys) (nd_hess_loop nx dm log kp kc (hess_view h o) ys)
    (fun o' g h' => [/\ g = hess_view h' o', separate true h' o', kept_or_new true h o o' & hf_dL o' = hf_dL o /\ hf_d2L o' = hf_d2L o]) (own true o).
Proof.
elim: ys => [|y ys IH] h o Hs; first by apply: runs_ret; split=> // l; left.
cbn [h_hess_loop nd_hess_loop].
refine (runs_bind_new (hess_correct_runs y Hs) _) => o1 g1 h1 Hst1 [-> Hs1 Hkn1 Hda1].
have EL1 : hf_dL o1 = hf_dL o /\ hf_d2L o1 = hf_d2L o by case: Hda1.
exists (own true o1); first exact: kept_within Hkn1.
case: ys IH => [|y' ys] IH; first by apply: runs_ret; split.
have H0 : {subset [::] <= own true o1} by [].
refine (runs_bind_new (runs_sub (hess_predict_runs Hs1) H0) _) => o2 g2 h2 Hst2 [_ [-> Hs2 Hkn2 EL2]].
exists (own true o2); first exact: kept_within Hkn2.
refine (runs_post (IH _ _ Hs2) _) => o3 g3 h3 _ [-> Hs3 Hkn3 EL3].
split=> //; last by rewrite (proj1 EL3) (proj2 EL3) (proj1 EL2) (proj2 EL2).
apply: kept_trans Hkn1 _; first exact: (proj1 Hst1).
by apply: kept_trans Hkn2 Hkn3; exact: (proj1 Hst2).
Qed.

(** After the first correction the arrays of the derivatives of the state are
    no longer touched. *)
Lemma grad_loop_first b h o y ys o' h' : separate b h o -> h_grad_loop nx m log kp kc o (y :: ys) h = (Ok o', h') ->
  exists2 g, nd_grad_correct nx dm log kc (grad_view h o) y = Ok g
    & at_loc h' (hf_dx o) = nds_x (ng_d g) /\ at_loc h' (hf_dP o) = nds_P (ng_d g).
Proof.
move=> Hs; cbn [h_grad_loop]; have := grad_correct_runs y Hs.
case: nd_grad_correct => [g|e]; last by move=> [h1 E _]; rewrite /mbind E.
move=> [o1 [h1 [E1 Hst1 [Eg Hs1 Hkn1 Hda1 _]]]] E; exists g => //.
have [Ex EP] : hf_dx o1 = hf_dx o /\ hf_dP o1 = hf_dP o by case: (b) Hda1 => /= -[].
have Eg' : nds_x (ng_d g) = at_loc h1 (hf_dx o) /\ nds_P (ng_d g) = at_loc h1 (hf_dP o) by rewrite Eg /= Ex EP.
have [-> ->] := Eg'; move: E; rewrite /mbind E1; case: ys => [|y' ys]; first by case=> _ <-.
have := grad_predict_runs Hs1.
case: nd_grad_predict => [g2|e]; last by move=> [h2 E2 _]; rewrite E2.
move=> [o2 [h2 [E2 Hst2 [_ Hs2 Hkn2 _ [_ [Nx NP]]]]]]; rewrite E2 => E3.
have [Hx HP] : (hf_dx o < size h1)%N /\ (hf_dP o < size h1)%N.
  by rewrite -Ex -EP; split; apply: (sep_in Hs1); exact: own_diff.
have := grad_loop_runs (y' :: ys) Hs2.
have S2 : at_loc h2 (hf_dx o) = at_loc h1 (hf_dx o) /\ at_loc h2 (hf_dP o) = at_loc h1 (hf_dP o).
  by rewrite !(proj2 Hst2).
case: nd_grad_loop => [g3|e].
- move=> [o3 [h3 [E4 Hst3 _]]]; move: E3; rewrite E4 => -[_ <-].
  by rewrite -Ex -EP !(proj2 Hst3) ?Ex ?EP; [exact: S2 | exact: leq_trans (proj1 Hst2) | rewrite -EP | exact: leq_trans (proj1 Hst2) | rewrite -Ex].
- by move=> [h3 E4 _]; move: E3; rewrite E4.
Qed.

(** * C79: what the methods do to the arrays in memory *)

(** [pem_gradient] returns the array of the attribute [dL_dq], with the value
    that the arithmetic of [NdKalModel] gives, or raises the same exception.
    Of the arrays that were there before, only those of [dx_dq], [dPx_dq],
    [dL_dq] and of an array [L] may have changed. *)
Theorem C79_gradient h o ys : separate false h o ->
  match nd_pem_gradient nx dm log kp kc (grad_view h o) ys with
  | Ok G => exists o' h', [/\ h_pem_gradient nx m log kp kc o ys h = (Ok (hf_dL o, o'), h'), at_loc h' (hf_dL o) = G,
      step h (own false o) h', separate false h' o' & hf_dL o' = hf_dL o]
  | Err e => exists2 h', h_pem_gradient nx m log kp kc o ys h = (Err e, h') & step h (own false o) h'
  end.
Proof.
move=> Hs; have := grad_loop_runs ys Hs; rewrite /nd_pem_gradient /h_pem_gradient.
case: nd_grad_loop => [g|e] /=; last by move=> [h' E Hst]; exists h'; rewrite // /mbind E.
move=> [o' [h' [E Hst [-> Hs' _ EL _]]]]; exists o', h'; split=> //; last by rewrite /= EL.
by rewrite /mbind E EL.
Qed.

Theorem C79_hessian h o ys : separate true h o ->
  match nd_pem_hessian nx dm log kp kc (hess_view h o) ys with
  | Ok H => exists o' h', [/\ h_pem_hessian nx m log kp kc o ys h = (Ok (hf_d2L o, o'), h'), at_loc h' (hf_d2L o) = H,
      step h (own true o) h', separate true h' o' & hf_d2L o' = hf_d2L o]
  | Err e => exists2 h', h_pem_hessian nx m log kp kc o ys h = (Err e, h') & step h (own true o) h'
  end.
Proof.
move=> Hs; have := hess_loop_runs ys Hs; rewrite /nd_pem_hessian /h_pem_hessian.
case: nd_hess_loop => [g|e] /=; last by move=> [h' E Hst]; exists h'; rewrite // /mbind E.
move=> [o' [h' [E Hst [-> Hs' _ [_ EL]]]]]; exists o', h'; split=> //; last by rewrite /= EL.
by rewrite /mbind E EL.
Qed.

(** A gradient does not disturb what [pem_hessian] needs besides. *)
Theorem C79_gradient_second h o ys l o' h' : separate true h o -> h_pem_gradient nx m log kp kc o ys h = (Ok (l, o'), h') ->
  separate true h' o' /\ view2 true h' o' = view2 true h o.
Proof.
move=> Hs; have := grad_loop_runs ys Hs; rewrite /h_pem_gradient /mbind.
case: nd_grad_loop => [g|e] /=; last by move=> [h1 -> _].
by move=> [o1 [h1 [-> _ [_ Hs1 _ _ Hv]]]] [_ <- <-].
Qed.

(** A second call on the same object returns the same array: the first result
    is overwritten. *)
Theorem C79_again h o ys l o' h' : separate false h o -> h_pem_gradient nx m log kp kc o ys h = (Ok (l, o'), h') ->
  forall ys' G, nd_pem_gradient nx dm log kp kc (grad_view h' o') ys' = Ok G ->
  exists o2 h2, h_pem_gradient nx m log kp kc o' ys' h' = (Ok (l, o2), h2) /\ at_loc h2 l = G.
Proof.
move=> Hs E ys' G EG; have := C79_gradient ys Hs.
case: nd_pem_gradient => [G0|e]; last by move=> [h1 E1 _]; rewrite E1 in E.
move=> [o1 [h1 [E1 _ _ Hs1 EL]]]; move: E; rewrite E1 => -[El Eo Eh]; rewrite -El -Eo -Eh in EG *.
have := C79_gradient ys' Hs1; rewrite EG EL => -[o2 [h2 [E2 H2 _ _ _]]].
by exists o2, h2.
Qed.

(** The arrays of the derivatives of the state hold, afterwards, their values
    after the correction with the first sample: predictions do not touch them,
    and later corrections update other arrays. *)
Theorem C79_state_arrays h o y ys l o' h' : separate false h o -> h_pem_gradient nx m log kp kc o (y :: ys) h = (Ok (l, o'), h') ->
  exists2 g, nd_grad_correct nx dm log kc (grad_view h o) y = Ok g
    & at_loc h' (hf_dx o) = nds_x (ng_d g) /\ at_loc h' (hf_dP o) = nds_P (ng_d g).
Proof.
move=> Hs; rewrite /h_pem_gradient /mbind.
case E: h_grad_loop => [[o1|e] h1] //= [_ Eo Eh]; rewrite Eo Eh in E.
exact: grad_loop_first Hs E.
Qed.

(** ** The constructor *)

(** What an initial derivative is: the value of the attribute of the model, or
    zeros. *)
Definition initial_value (attr : option (mem F loc)) (dflt v : nd) : Prop :=
  match attr with
  | None => v = dflt
  | Some call => returns_new call v \/
                 (v = dflt /\ forall h, exists2 h', call h = (Err AttributeError, h') & step h [::] h')
  end.

(** An argument of the caller, or what the model returns. *)
Definition given_or_new (h : heap) (x : option loc) (call : mem F loc) (v : nd) : Prop :=
  match x with
  | Some l => (l < size h)%N /\ at_loc h l = v
  | None => returns_new call v
  end.

Lemma get_initial_new base attr s v : initial_value attr (zeros F (base ++ s)) v -> returns_new (h_get_initial base None attr s) v.
Proof.
have Hz h : exists l h', [/\ alloc (zeros F (base ++ s)) h = (Ok l, h'), step h [::] h', (size h <= l < size h')%N & at_loc h' l = zeros F (base ++ s)].
  by exists (size h), (rcons h (zeros F (base ++ s))); rewrite size_rcons leqnn ltnSn at_new; split=> //; exact: step_alloc.
case: attr => [call|] /=; last by move=> -> h; exact: Hz.
case=> [H h|[-> H] h].
- by have [l [h' [E H1 H2 H3]]] := H h; exists l, h'; rewrite E; split.
- have [h' E Hs] := H h; rewrite E; have [l [h2 [E2 H1 /andP[H2 H2'] H3]]] := Hz h'.
  exists l, h2; split=> //; first by apply: step_trans Hs H1 _.
  by rewrite H2' andbT; apply: leq_trans H2; exact: (proj1 Hs).
Qed.

Lemma given_call h h1 x call v : given_or_new h x call v -> step h [::] h1 ->
  exists l h2, [/\ (match x with None => call | Some l => mret l end) h1 = (Ok l, h2), step h1 [::] h2, (l < size h2)%N, at_loc h2 l = v
    & forall l', x = Some l' -> l = l'].
Proof.
case: x => [l|] /= H Hst.
- case: H => Hl <-; exists l, h1; split=> //; [exact: leq_trans (proj1 Hst) | exact: (proj2 Hst) | by move=> ? []].
- by have [l [h2 [E S /andP[_ Hl] V]]] := H h1; exists l, h2; split.
Qed.

(** Without options for them, the arrays that the filter updates are new ones,
    different from each other. *)
Theorem C79_constructed h x Px o X0 P0 vdx vdP vd2x vd2P : let nq := hm_nq m in let base := take (size (shape X0)).-1 (shape X0) in
  [/\ ho_L o = None, ho_dL_dq o = None, ho_dx_dq o = None & ho_dPx_dq o = None] -> ho_d2x_dq2 o = None -> ho_d2Px_dq2 o = None ->
  given_or_new h x (hm_x0 m) X0 -> given_or_new h Px (hm_Px0 m) P0 ->
  initial_value (hm_dx0_dq m) (zeros F (base ++ [:: nq; nx])) vdx -> initial_value (hm_dPx0_dq m) (zeros F (base ++ [:: nq; nx; nx])) vdP ->
  initial_value (hm_d2x0_dq2 m) (zeros F (base ++ [:: nq; nq; nx])) vd2x -> initial_value (hm_d2Px0_dq2 m) (zeros F (base ++ [:: nq; nq; nx; nx])) vd2P ->
  exists f h', [/\ h_init nx m x Px o h = (Ok f, h'), step h [::] h', separate true h' f, (forall l, l \in own true f -> (size h <= l)%N)
    & hess_view h' f = NHS (NGS (NS (odflt 0%N (ho_k o)) X0 P0) (scalar 0) (NDS vdx vdP) (zeros F (base ++ [:: nq])))
                           (NDS vd2x vd2P) (zeros F (base ++ [:: nq; nq]))
    /\ (forall l, x = Some l -> hf_x f = l)].
Proof.
move=> nq base [OL OdL Odx OdP] Od2x Od2P Hx HP Hdx HdP Hd2x Hd2P.
have [lx [h1 [E1 S1 I1 V1 G1]]] := given_call Hx (step_refl h [::]).
have [lP [h2 [E2 S2 I2 V2 _]]] := given_call HP S1.
set z1 := size h2; pose h3 := rcons h2 (zeros F (base ++ [:: nq])).
pose z2 := size h3; pose h4 := rcons h3 (zeros F (base ++ [:: nq; nq])).
have [l5 [h5 [E5 S5 /andP[A5 B5] V5]]] := get_initial_new Hdx h4.
have [l6 [h6 [E6 S6 /andP[A6 B6] V6]]] := get_initial_new HdP h5.
have [l7 [h7 [E7 S7 /andP[A7 B7] V7]]] := get_initial_new Hd2x h6.
have [l8 [h8 [E8 S8 /andP[A8 B8] V8]]] := get_initial_new Hd2P h7.
have S3 : step h2 [::] h3 by exact: step_alloc.
have S4 : step h3 [::] h4 by exact: step_alloc.
have S78 := step_trans S7 S8 (fun l _ H => H); have S68 := step_trans S6 S78 (fun l _ H => H).
have S58 := step_trans S5 S68 (fun l _ H => H); have S48 := step_trans S4 S58 (fun l _ H => H).
have S38 := step_trans S3 S48 (fun l _ H => H); have S28 := step_trans S2 S38 (fun l _ H => H).
have S18 := step_trans S1 S28 (fun l _ H => H).
have C1 : (z1 < z2)%N by rewrite /z2 size_rcons.
have C2 : (z2 < l5)%N by apply: leq_trans A5; rewrite size_rcons.
have C3 : (l5 < l6)%N by exact: leq_trans B5 A6.
have C4 : (l6 < l7)%N by exact: leq_trans B6 A7.
have C5 : (l7 < l8)%N by exact: leq_trans B7 A8.
pose f : hfilter := HFilter (odflt 0%N (ho_k o)) lx lP (HNum (scalar 0)) z1 z2 l5 l6 l7 l8.
have Hp : perm_eq (own true f) [:: z1; z2; l5; l6; l7; l8].
  have E : perm_eq (own true f) ([:: z1] ++ [:: l5; l6] ++ [:: l7; l8; z2]).
    by apply/permPl; exact: (perm_catCA [:: l5; l6] [:: z1] [:: l7; l8; z2]).
  by apply: perm_trans E _; rewrite perm_cons; apply/permPl; exact: (perm_catC [:: l5; l6; l7; l8] [:: z2]).
have Hsort : sorted ltn [:: z1; z2; l5; l6; l7; l8] by rewrite /= C1 C2 C3 C4 C5.
have Hge l : l \in own true f -> (z1 <= l < size h8)%N.
  have D2 := ltn_trans C1 C2; have D3 := ltn_trans D2 C3; have D4 := ltn_trans D3 C4; have D5 := ltn_trans D4 C5.
  have B7' := ltn_trans C5 B8; have B6' := ltn_trans C4 B7'; have B5' := ltn_trans C3 B6'; have B4' := ltn_trans C2 B5'; have B3' := ltn_trans C1 B4'.
  rewrite (perm_mem Hp) !inE; do 5 (case/orP => [/eqP->|]; first by rewrite ?leqnn ?(ltnW C1) ?(ltnW D2) ?(ltnW D3) ?(ltnW D4)).
  by move/eqP ->; rewrite (ltnW D5).
exists f, h8; split=> //.
- rewrite /h_init OL OdL Odx OdP Od2x Od2P /mbind E1 E2 /load /alloc.
  have -> : at_loc h2 lx = X0 by rewrite -V1; exact: (proj2 S2).
  by rewrite E5 E6 E7 E8.
- have [H1 H2] : (lx < z1)%N /\ (lP < z1)%N by split=> //; exact: leq_trans (proj1 S2).
  split=> //.
  + by rewrite (perm_uniq Hp); exact: (sorted_uniq ltn_trans ltnn Hsort).
  + by move=> l /Hge /andP[].
  + split; first by apply: leq_trans H1 _; exact: (proj1 S38).
    by apply/negP => /Hge /andP[]; rewrite leqNgt H1.
  + split; first by apply: leq_trans H2 _; exact: (proj1 S38).
    by apply/negP => /Hge /andP[]; rewrite leqNgt H2.
- move=> l /Hge /andP[H _]; apply: leq_trans H; apply: leq_trans (proj1 S2); exact: (proj1 S1).
- split; last by move=> l /G1.
  rewrite /hess_view /grad_view /=.
  have -> : at_loc h8 lx = X0 by rewrite -V1 (proj2 S28).
  have -> : at_loc h8 lP = P0 by rewrite -V2 (proj2 S38).
  have -> : at_loc h8 z1 = zeros F (base ++ [:: nq]) by rewrite (proj2 S48) ?at_new // size_rcons.
  have -> : at_loc h8 z2 = zeros F (base ++ [:: nq; nq]) by rewrite (proj2 S58) ?at_new // size_rcons.
  by rewrite (proj2 S68) // (proj2 S78) // (proj2 S8) // V5 V6 V7 V8.
Qed.

(** So constructing the filter and calling [pem_gradient] or [pem_hessian]
    changes no array that was there before. *)
Theorem C79_caller h f h' : step h [::] h' -> separate true h' f ->
  (forall l, l \in own true f -> (size h <= l)%N) ->
  forall ys l, (l < size h)%N ->
    at_loc (h_pem_gradient nx m log kp kc f ys h').2 l = at_loc h l /\ at_loc (h_pem_hessian nx m log kp kc f ys h').2 l = at_loc h l.
Proof.
move=> Hst Hs Hnew ys l Hl.
have Hl' : (l < size h')%N by exact: leq_trans (proj1 Hst).
have Hn : l \notin own true f by apply/negP => /Hnew; rewrite leqNgt Hl.
have E0 : at_loc h' l = at_loc h l by exact: (proj2 Hst).
split.
- have := grad_loop_runs ys Hs; rewrite /h_pem_gradient /mbind.
  case: nd_grad_loop => [g|e]; first by move=> [o' [h2 [-> S _]]] /=; rewrite (proj2 S).
  by move=> [h2 -> S] /=; rewrite (proj2 S).
- have := hess_loop_runs ys Hs; rewrite /h_pem_hessian /mbind.
  case: nd_hess_loop => [g|e]; first by move=> [o' [h2 [-> S _]]] /=; rewrite (proj2 S).
  by move=> [h2 -> S] /=; rewrite (proj2 S).
Qed.

(** Arrays in the options become the arrays of the filter; [d2L_dq2] is then
    the same array as [dL_dq] (base.py:48). *)
Theorem C79_options h x Px o f h' : h_init nx m x Px o h = (Ok f, h') ->
  [/\ forall l, ho_dL_dq o = Some l -> [/\ hf_dL f = l, hf_d2L f = l & forall h2, ~ separate true h2 f],
      (forall l, ho_dx_dq o = Some l -> hf_dx f = l) /\ (forall l, ho_dPx_dq o = Some l -> hf_dP f = l),
      (forall l, ho_d2x_dq2 o = Some l -> hf_d2x f = l) /\ (forall l, ho_d2Px_dq2 o = Some l -> hf_d2P f = l),
      (forall l, x = Some l -> hf_x f = l) /\ (forall l, Px = Some l -> hf_P f = l)
    & forall L, ho_L o = Some L -> hf_L f = L].
Proof.
rewrite /h_init /mbind.
case Ex: (match x with None => _ | _ => _ end) => [[lx|//] h1].
case EP: (match Px with None => _ | _ => _ end) => [[lP|//] h2].
rewrite /load /alloc.
case E5: (h_get_initial _ (ho_dx_dq o) _ _ _) => [[l5|//] h5].
case E6: (h_get_initial _ (ho_dPx_dq o) _ _ _) => [[l6|//] h6].
case E7: (h_get_initial _ (ho_d2x_dq2 o) _ _ _) => [[l7|//] h7].
case E8: (h_get_initial _ (ho_d2Px_dq2 o) _ _ _) => [[l8|//] h8].
move=> [<- _] /=; split.
- move=> l ->; split=> // h9 /sep_uniq; rewrite /own /= !inE /= => /and4P[_ _].
  by rewrite eqxx !orbT.
- by split=> l E; [move: E5 | move: E6]; rewrite E /= => -[].
- by split=> l E; [move: E7 | move: E8]; rewrite E /= => -[].
- by split=> l E; [move: Ex | move: EP]; rewrite E /= => -[].
- by move=> L ->.
Qed.

(** unscented.py:130: a model function [df_dq] that returns a stored array
    finds the chain-rule term added to it after [prediction_diff]. *)
Theorem C79_stored h kappa s u o l v prev o' h' : (forall X, hm_df_dq m (ns_k s) X = mret l) -> (l < size h)%N ->
  h_prediction_diff nx m kappa s u o h = (Ok (v, prev, o'), h') ->
  exists2 T, einsum "k...if,k...ai->k...af" [:: nv_df_di v; nv_disigma v] = Ok T & nd_iadd (at_loc h l) T = Ok (at_loc h' l).
Proof.
move=> Hm Hl; rewrite /h_prediction_diff /h_transform_diff Hm /mbind /load /lift /mret; cbv zeta.
case: nd_chol_diff => [c|//]; case: nd_sigma_points_diff => [[didev disigma]|//].
case ET: (einsum "k...if,k...ai->k...af") => [T|//]; rewrite /iadd_at /update.
case EA: (nd_iadd (at_loc h l) T) => [A|//].
case: (einsum "k,k...") => [d|//]; case: (nd_sub _ d) => [dodev|//]; case: (einsum "k...lj,k...i,k->...lij") => [dPo|//].
case: (nd_iadd dPo) => [dPo'|//]; rewrite /alloc.
case: (einsum "...ij,...jkl") => [T2|//]; case: (nd_add _ T2) => [DQ|//]; case: (nd_add _ DQ) => [dP|//].
move=> [<- _ _ <-]; exists T => //=.
by rewrite !at_old ?size_rcons ?leqW ?size_set // at_set eqxx.
Qed.
End Loops.
End Spec.
