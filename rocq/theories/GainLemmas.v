(** Matrix algebra of the Kalman gain. *)
From mathcomp Require Import all_ssreflect all_algebra.
From Verif Require Import McRing PsdLemmas.
Set Implicit Arguments.
Unset Strict Implicit.
Unset Printing Implicit Defensive.
Import Order.TTheory GRing.Theory Num.Theory.
Local Open Scope ring_scope.

Section Gain.
Variable F : rcfType.
Let FC := [comRingType of F].
Add Ring Fg : (com_rt FC).
Variables n m : nat.

(** Error covariance of the estimate [x + G e] for a joint covariance
    [P], [Pxh], [Ph] of state and output, and noise [R]. *)
Definition errcov (P : 'M[F]_n) (Pxh : 'M[F]_(n, m)) (Py : 'M[F]_m) (G : 'M[F]_(n, m)) : 'M[F]_n :=
  P - Pxh *m G^T - G *m Pxh^T + G *m Py *m G^T.

Section Opt.
Variables (P : 'M[F]_n) (Pxh : 'M[F]_(n, m)) (Py : 'M[F]_m).
Hypotheses (SPy : Py^T = Py) (UPy : Py \in unitmx).
Let K := Pxh *m invmx Py.

Lemma gainPy : K *m Py = Pxh. Proof. by rewrite /K mulmxKV. Qed.
Lemma gainPyT : Py *m K^T = Pxh^T. Proof. by rewrite -gainPy [RHS]trmx_mul SPy. Qed.

Lemma errcov_opt G : errcov P Pxh Py G = (P - K *m Py *m K^T) + (G - K) *m Py *m (G - K)^T.
Proof.
have trB : (G - K)^T = G^T - K^T by rewrite linearB.
rewrite /errcov trB mulmxBl mulmxBr !mulmxBl gainPy -(mulmxA G Py K^T) gainPyT.
by mx_norm FC; ring.
Qed.
Lemma errcov_gain : errcov P Pxh Py K = P - K *m Py *m K^T.
Proof. by rewrite errcov_opt subrr !mul0mx addr0. Qed.
End Opt.

(** Error covariance as a congruence of the joint covariance. *)
Lemma errcov_block P Pxh Ph R G :
  errcov P Pxh (Ph + R) G
    = row_mx 1%:M (- G) *m block_mx P Pxh Pxh^T Ph *m (row_mx 1%:M (- G))^T + G *m R *m G^T.
Proof.
have trN : (- G)^T = - G^T by rewrite linearN.
rewrite /errcov mul_row_block !mul1mx tr_row_mx trmx1 trN mul_row_col mulmx1 !mulNmx mulmxN mulmxBl.
rewrite mulmxDr mulmxDl !addrA; congr (_ + _).
by mx_norm FC; ring.
Qed.

Lemma errcov_psd P Pxh Ph R G :
  psd (block_mx P Pxh Pxh^T Ph) -> psd R -> psd (errcov P Pxh (Ph + R) G).
Proof. by move=> J R0; rewrite errcov_block; apply: psdD; apply: psd_cong. Qed.

Lemma errcov_pd P Pxh Ph R G :
  psd (block_mx P Pxh Pxh^T Ph) -> pd P -> pd R -> pd (errcov P Pxh (Ph + R) G).
Proof.
move=> J PP R0; split; first by have := errcov_psd G J (pd_psd R0); case.
move=> v nz; rewrite errcov_block qfD (qf_cong (block_mx _ _ _ _)).
rewrite (qf_cong R); have [E|nz2] := eqVneq (v *m G) 0.
  rewrite E qf0 addr0 mul_mx_row mulmx1 mulmxN E oppr0 /qf mul_row_block tr_row_mx mul_row_col.
  by rewrite !mul0mx !addr0 trmx0 mulmx0 addr0; apply: (proj2 PP).
rewrite ltr_paddl //; first by case: J.
exact: (proj2 R0).
Qed.
End Gain.

(** The linear case. *)
Section Linear.
Variable F : rcfType.
Let FC := [comRingType of F].
Add Ring Fl : (com_rt FC).
Variables n m : nat.
Variables (P : 'M[F]_n) (H : 'M[F]_(n, m)) (R : 'M[F]_m).

(** Innovation covariance, gain, posterior covariance and Joseph form. *)
Definition inncov := H^T *m (P *m H) + R.
Definition gain := P *m H *m invmx inncov.
Definition post := P - gain *m inncov *m gain^T.
Definition joseph (G : 'M[F]_(n, m)) := (1%:M - G *m H^T) *m P *m (1%:M - G *m H^T)^T + G *m R *m G^T.

Hypothesis PP : psd P.
Lemma joint_linear : psd (block_mx P (P *m H) (P *m H)^T (H^T *m (P *m H))).
Proof.
have -> : block_mx P (P *m H) (P *m H)^T (H^T *m (P *m H)) = (row_mx 1%:M H)^T *m P *m row_mx 1%:M H.
  by rewrite tr_row_mx trmx1 mul_col_mx mul_col_row mul1mx !mulmx1 trmx_mul (psd_sym PP) -!mulmxA.
exact: psd_congT.
Qed.

Lemma inncov_sym : R^T = R -> inncov^T = inncov.
Proof. by move=> SR; rewrite /inncov linearD /= !trmx_mul trmxK (psd_sym PP) SR mulmxA. Qed.

Lemma joseph_errcov G : joseph G = errcov P (P *m H) inncov G.
Proof.
rewrite errcov_block /joseph; congr (_ + _).
have -> : (1%:M : 'M[F]_n) - G *m H^T = row_mx 1%:M (- G) *m (row_mx 1%:M H)^T.
  by rewrite tr_row_mx trmx1 mul_row_col mulmx1 mulNmx.
have -> : block_mx P (P *m H) (P *m H)^T (H^T *m (P *m H)) = (row_mx 1%:M H)^T *m P *m row_mx 1%:M H.
  by rewrite tr_row_mx trmx1 mul_col_mx mul_col_row mul1mx !mulmx1 trmx_mul (psd_sym PP) -!mulmxA.
by rewrite trmx_mul trmxK !mulmxA.
Qed.

Hypothesis PR : pd R.
Lemma inncov_pd : pd inncov.
Proof.
apply: psd_pdD => //; rewrite mulmxA; exact: psd_congT.
Qed.
Let UPy := pd_unit inncov_pd.
Let SPy := pd_sym inncov_pd.

Lemma post_joseph : post = joseph gain.
Proof. by rewrite joseph_errcov (errcov_gain P _ SPy UPy). Qed.
Lemma post_min G : loewner post (joseph G).
Proof.
rewrite /loewner joseph_errcov (errcov_opt P _ SPy UPy) addrAC subrr add0r.
by apply: psd_cong; apply: pd_psd; apply: inncov_pd.
Qed.
Lemma post_psd : psd post.
Proof. by rewrite post_joseph joseph_errcov; apply: errcov_psd (pd_psd PR); apply: joint_linear. Qed.
Lemma post_le : loewner post P.
Proof.
rewrite /loewner /post opprB addrC subrK; apply: psd_cong; apply: pd_psd; exact: inncov_pd.
Qed.
Lemma gain_inn : gain *m inncov = P *m H. Proof. exact: mulmxKV. Qed.
Lemma post_short : post = (1%:M - gain *m H^T) *m P.
Proof.
have -> : post = P - gain *m (inncov *m gain^T) by rewrite mulmxA.
rewrite mulmxBl mul1mx; congr (_ - _); rewrite -mulmxA; congr (_ *m _).
by rewrite -{1}SPy -trmx_mul gain_inn trmx_mul (psd_sym PP).
Qed.
(** [K R = P' H]. *)
Lemma post_gain : post *m H = gain *m R.
Proof.
rewrite post_short -(mulmxA _ P H) mulmxBl mul1mx -{1}gain_inn -(mulmxA gain) -mulmxBr; congr (_ *m _).
by rewrite /inncov addrC addKr.
Qed.
Lemma gain_post : gain = post *m H *m invmx R.
Proof. by rewrite post_gain mulmxK // pd_unit. Qed.

Hypothesis UP : P \in unitmx.
Lemma post_info : post *m (invmx P + H *m invmx R *m H^T) = 1%:M.
Proof.
rewrite mulmxDr !mulmxA -gain_post post_short mulmxK //.
by rewrite subrK.
Qed.
Lemma post_unit : post \in unitmx. Proof. by have [] := mulmx1_unit post_info. Qed.
Lemma invmx_post : invmx post = invmx P + H *m invmx R *m H^T.
Proof. by rewrite -[RHS](mulKmx post_unit) post_info mulmx1. Qed.
Lemma post_pd : pd post. Proof. exact: psd_unit_pd post_psd post_unit. Qed.

Lemma invpost_gain : invmx post *m gain = H *m invmx R.
Proof. by rewrite gain_post !mulmxA mulVmx ?post_unit // mul1mx. Qed.
Lemma gainT_invpost : gain^T *m invmx post = invmx R *m H^T.
Proof.
have -> : invmx post = (invmx post)^T by rewrite (invmx_sym (psd_sym post_psd)).
by rewrite -trmx_mul invpost_gain trmx_mul (invmx_sym (pd_sym PR)).
Qed.

(** Completing the square. *)
Lemma complete_square (d : 'rV[F]_n) (e : 'rV[F]_m) :
  qf (invmx P) d + qf (invmx R) (e - d *m H)
    = qf (invmx post) (d - e *m gain^T) + qf (invmx inncov) e.
Proof.
have trB k (a b : 'rV[F]_k) : (a - b)^T = a^T - b^T by rewrite linearB.
have cross : d *m H *m invmx R *m e^T = d *m invmx post *m gain *m e^T.
  by rewrite -(mulmxA d (invmx post)) invpost_gain !mulmxA.
have cross' : e *m invmx R *m H^T *m d^T = e *m gain^T *m invmx post *m d^T.
  by rewrite -(mulmxA e gain^T) gainT_invpost !mulmxA.
have quad : e *m gain^T *m invmx post *m gain *m e^T + e *m invmx inncov *m e^T = e *m invmx R *m e^T.
  rewrite -mulmxDl; congr (_ *m _).
  rewrite -(mulmxA (e *m gain^T)) invpost_gain -(mulmxA e) -mulmxDr; congr (_ *m _).
  have -> : gain^T = invmx inncov *m (P *m H)^T by rewrite /gain trmx_mul (invmx_sym SPy).
  have E : (P *m H)^T *m H = inncov - R.
    by rewrite /inncov addrK trmx_mul (psd_sym PP) mulmxA.
  rewrite !mulmxA -(mulmxA (invmx inncov)) E mulmxBr mulVmx // mulmxBl mul1mx mulmxK ?pd_unit //.
  by rewrite subrK.
have mE (M N : 'M[F]_1) : (M + N) 0 0 = M 0 0 + N 0 0 by rewrite mxE.
rewrite /qf -!mE; congr (fun_of_matrix _ 0 0).
have pE : d *m invmx post *m d^T = d *m invmx P *m d^T + d *m H *m invmx R *m H^T *m d^T.
  by rewrite invmx_post mulmxDr mulmxDl !mulmxA.
move: cross cross' quad pE; set ip := invmx post; set ii := invmx inncov; set ir := invmx R; set iP := invmx P.
clearbody ip ii ir iP; set K := gain; clearbody K => cross cross' quad pE.
rewrite !trB !trmx_mul trmxK !(mulmxBl, mulmxBr, mulmxA) cross cross' -quad pE.
by mx_norm FC; ring.
Qed.
End Linear.
