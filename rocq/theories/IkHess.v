(** Second derivatives of the objective, and what compute_hessian computes. *)
From Coq Require Import Arith.Wf_nat.
From Verif Require Import Base VecModel QuatModel QuatProofs BvhModel BvhProofs IkModel IkSpec IkProofs IkPose IkDeriv IkJac IkGrad.
Open Scope R_scope.

Lemma jacobi_id w a d : vadd (vcross (vcross w a) d) (vcross a (vcross w d)) = vcross w (vcross a d).
Proof. unfold vadd, vcross; cbn. f_equal; ring. Qed.

Lemma q_rotate_zero q : q_rotate q vzero = vzero.
Proof. rewrite q_rotate_formula. destruct q as [s0 a b c]. unfold vadd, vscale, vcross, vdot, vzero, qvec; cbn. f_equal; ring. Qed.
(** angle (m, o) acts before angle (k, i) *)
Definition beforeb (m o k i : nat) : bool := (Nat.ltb m k || (Nat.eqb m k && Nat.ltb o i))%bool.
Definition memb (k : nat) (l : list nat) : bool := existsb (Nat.eqb k) l.
Lemma memb_in k l : memb k l = true <-> In k l.
Proof. unfold memb. rewrite existsb_exists. split; [intros (x & H & E); apply Nat.eqb_eq in E; subst; auto|intros H; exists k; split; auto; apply Nat.eqb_refl]. Qed.
Lemma memb_dec {A} k l (x y : A) : (if in_dec Nat.eq_dec k l then x else y) = if memb k l then x else y.
Proof. destruct (in_dec Nat.eq_dec k l) as [I|N]; [rewrite (proj2 (memb_in k l) I)|]; auto. destruct (memb k l) eqn:E; auto. apply memb_in in E. contradiction. Qed.
(** derivative of column (k, i) with respect to angle (m, o) *)
Definition second (s : skeleton) (c : chain) (m o k i : nat) : vec3 :=
  if (memb m (ch_bones c) && memb k (ch_bones c))%bool then
    if beforeb m o k i then vcross (waxis s m o) (dcol s c k i) else vcross (waxis s k i) (dcol s c m o)
  else vzero.

Lemma path_order s n l a b : bone_tree s -> path s n l -> In a l -> In b l -> desc s a b <-> (a <= b)%nat.
Proof.
  intros HT HP. revert a b. induction HP as [r Hr Er|p k r l Hk Ek HP IH]; intros a b Ha Hb.
  - cbn in Ha, Hb. destruct Ha as [<-|[]], Hb as [<-|[]]. split; auto. constructor.
  - split; [apply desc_ge; auto|]. intros L. rewrite in_app_iff in Ha, Hb. cbn in Ha, Hb.
    assert (PI : parent_is s p k) by (exists r; auto).
    destruct Hb as [Hb|[<-|[]]].
    + destruct Ha as [Ha|[<-|[]]]; [apply IH; auto|]. apply (path_desc _ _ _ _ HP) in Hb. apply desc_ge in Hb; auto. apply parent_lt in PI; auto. lia.
    + destruct Ha as [Ha|[<-|[]]]; [|constructor]. apply (path_desc _ _ _ _ HP) in Ha. eapply desc_child; eauto.
Qed.

(** base pose of the updated, varied skeleton *)
Lemma base_strip s s' m T Q : same_joints s s' -> base_pose s m T Q -> base_pose s' m T Q.
Proof.
  intros SJ (b & Hb & H). destruct (strip_nth _ _ _ _ SJ Hb) as (b' & Hb' & S). exists b'. split; auto.
  assert (X : bn_parent b' = bn_parent b /\ bn_t b' = bn_t b) by (unfold strip in S; split; congruence). destruct X as [-> ->].
  destruct H as [H|(p & Tp & E1 & E2 & E3)]; [left; auto|right]. exists p, Tp. repeat split; auto. eapply wpose_strip; eauto.
Qed.

(** axes and positions as functions of angle (m, o) *)
Lemma frame_deriv s m o k i : bone_tree s -> codes_ok s -> (m < length s)%nat -> (o < 3)%nat -> (k < length s)%nat -> (i < 3)%nat ->
  exists W Tm A T, (forall x s2, update_skeleton (vary s m o x) = Some s2 -> waxis s2 m o = W /\ wpos s2 m = Tm /\ waxis s2 k i = A x /\ wpos s2 k = T x) /\
  (desc s m k -> forall x, vderiv A x (if beforeb m o k i then vcross W (A x) else vzero) /\ vderiv T x (vcross W (vsub (T x) Tm))) /\
  (~ desc s m k -> forall x, vderiv A x vzero /\ vderiv T x vzero).
Proof.
  intros HT HC Hm Ho Hk Hi.
  destruct (nth_error s m) as [bm|] eqn:Em; [|apply nth_error_None in Em; lia]. destruct (nth_error s k) as [bk|] eqn:Ek; [|apply nth_error_None in Ek; lia].
  destruct (base_exists s m HT Hm) as (Tm & Qm & Bm). assert (Um : is_unit Qm) by (eapply base_unit; eauto).
  assert (WX : forall j bj Tj Qj i' x s2, update_skeleton (vary s m o x) = Some s2 -> nth_error (vary s m o x) j = Some bj -> base_pose (vary s m o x) j Tj Qj -> (i' < 3)%nat ->
               waxis s2 j i' = q_rotate Qj (axis_local i' bj) /\ wpos s2 j = Tj).
  { intros j bj Tj Qj i' x s2 U Hj Bj Hi'. destruct (update_posed _ _ (vary_tree s m o x HT) (vary_codes s m o x HC) U) as [HP SJ].
    destruct (strip_nth _ _ _ _ SJ Hj) as (b2 & Hb2 & S2). rewrite <- (axis_local_strip _ _ _ S2).
    apply waxis_eq; auto. eapply same_joints_tree; [exact SJ|apply vary_tree; auto]. eapply same_joints_codes; [exact SJ|apply vary_codes; auto]. eapply base_strip; eauto. }
  assert (WM : forall x s2, update_skeleton (vary s m o x) = Some s2 -> waxis s2 m o = q_rotate Qm (axis_local o bm) /\ wpos s2 m = Tm).
  { intros x s2 U. rewrite <- (axis_local_own o bm x). apply (WX m (set_ang o bm x) Tm Qm o x s2 U); auto. apply vary_at; auto. apply base_still; auto. }
  destruct (Nat.eq_dec m k) as [->|Dmk].
  { (* the bone itself *)
    assert (bk = bm) by congruence. subst bk. exists (q_rotate Qm (axis_local o bm)), Tm, (fun x => q_rotate Qm (axis_local i (set_ang o bm x))), (fun _ => Tm).
    split; [|split].
    - intros x s2 U. destruct (WM x s2 U). split; [auto|split; [auto|]]. apply (WX k (set_ang o bm x) Tm Qm i x s2 U); auto. apply vary_at; auto. apply base_still; auto.
    - intros _ x. split.
      + unfold beforeb. rewrite Nat.ltb_irrefl, Nat.eqb_refl. cbn [orb andb].
        eapply vderiv_eq; [apply (vderiv_rotate Qm (fun t => axis_local i (set_ang o bm t)) x); [auto|apply axis_deriv; eauto]|].
        destruct (Nat.ltb o i); [rewrite rot_cross by auto; auto|]. apply q_rotate_zero.
      + eapply vderiv_eq; [apply vderiv_const|]. replace (vsub Tm Tm) with vzero by (destruct Tm; unfold vsub, vzero; cbn; f_equal; ring). rewrite vcross_zero_r. auto.
    - intros ND. destruct ND. constructor. }
  assert (NK : forall x, nth_error (vary s m o x) k = Some bk) by (intros x; rewrite vary_other; auto).
  assert (DEC : desc s m k \/ ~ desc s m k).
  { destruct (path_exists s k HT Hk) as (l & Hl). rewrite <- (path_desc _ _ _ m Hl). destruct (in_dec Nat.eq_dec m l); auto. }
  destruct DEC as [D|ND].
  - (* below m: the parent of k is m or below *)
    inversion D as [E|p k' Dp PI]; [congruence|]. subst k'. destruct PI as (b & Hb & Pb). assert (b = bk) by congruence. subst b.
    destruct (wpose_moved s m p bm Tm Qm HT Em Bm Dp) as (pp & r & Ur & W).
    set (Qx := fun x => q_prod (q_prod Qm (jrot (set_ang o bm x))) r).
    set (Tx := fun x => vadd (vadd Tm (q_rotate (q_prod Qm (jrot (set_ang o bm x))) pp)) (q_rotate (Qx x) (bn_t bk))).
    assert (BK : forall x, base_pose (vary s m o x) k (Tx x) (Qx x)).
    { intros x. exists bk. split; [auto|right]. exists p, (vadd Tm (q_rotate (q_prod Qm (jrot (set_ang o bm x))) pp)). split; [auto|split; [apply W|reflexivity]]. }
    exists (q_rotate Qm (axis_local o bm)), Tm, (fun x => q_rotate (Qx x) (axis_local i bk)), Tx.
    split; [|split].
    + intros x s2 U. destruct (WM x s2 U). split; [auto|split; [auto|]]. apply (WX k bk (Tx x) (Qx x) i x s2 U); auto.
    + intros _ x.
      assert (DV : forall v, vderiv (fun t => q_rotate (Qx t) v) x (vcross (q_rotate Qm (axis_local o bm)) (q_rotate (Qx x) v))).
      { intros v. unfold Qx. rewrite !q_rotate_prod. rewrite <- rot_cross by auto. apply (vderiv_ext (fun t => q_rotate Qm (q_rotate (jrot (set_ang o bm t)) (q_rotate r v)))); [intros t; rewrite !q_rotate_prod; reflexivity|].
        apply (vderiv_rotate Qm (fun t => q_rotate (jrot (set_ang o bm t)) (q_rotate r v))); auto. apply jrot_deriv; eauto. }
      split.
      * replace (beforeb m o k i) with true; [apply DV|]. unfold beforeb. apply desc_ge in D; auto. replace (m <? k)%nat with true by (symmetry; apply Nat.ltb_lt; lia). auto.
      * assert (TE : forall t, Tx t = vadd Tm (q_rotate (Qx t) (vadd (q_rotate (q_conj r) pp) (bn_t bk)))).
        { intros t. unfold Tx, Qx. rewrite q_rotate_add, !q_rotate_prod. rewrite (q_rotate_inv_r r) by auto.
          generalize (q_rotate Qm (q_rotate (jrot (set_ang o bm t)) pp)) (q_rotate Qm (q_rotate (jrot (set_ang o bm t)) (q_rotate r (bn_t bk)))).
          intros [] []. destruct Tm. unfold vadd; cbn; f_equal; ring. }
        rewrite TE. replace (vsub (vadd Tm (q_rotate (Qx x) (vadd (q_rotate (q_conj r) pp) (bn_t bk)))) Tm) with (q_rotate (Qx x) (vadd (q_rotate (q_conj r) pp) (bn_t bk))).
        2:{ generalize (q_rotate (Qx x) (vadd (q_rotate (q_conj r) pp) (bn_t bk))). intros []. destruct Tm. unfold vadd, vsub; cbn; f_equal; ring. }
        eapply vderiv_ext; [intros t; symmetry; apply TE|].
        eapply vderiv_eq; [apply (vderiv_add (fun _ => Tm) (fun t => q_rotate (Qx t) (vadd (q_rotate (q_conj r) pp) (bn_t bk)))); [apply vderiv_const|apply DV]|apply vadd_zero_l].
    + intros ND. contradiction.
  - destruct (base_exists s k HT Hk) as (Tk & Qk & Bk).
    exists (q_rotate Qm (axis_local o bm)), Tm, (fun _ => q_rotate Qk (axis_local i bk)), (fun _ => Tk). split; [|split].
    + intros x s2 U. destruct (WM x s2 U). split; [auto|split; [auto|]]. apply (WX k bk Tk Qk i x s2 U); auto. apply base_still; auto.
    + intros D. contradiction.
    + intros _ x. split; apply vderiv_const.
Qed.

Lemma dcol_deriv s c m o k i : bone_tree s -> codes_ok s -> serial s c -> (m < length s)%nat -> (o < 3)%nat -> (k < length s)%nat -> (i < 3)%nat ->
  exists D, (forall x s2, update_skeleton (vary s m o x) = Some s2 -> dcol s2 c k i = D x) /\
  (forall x s2, update_skeleton (vary s m o x) = Some s2 -> vderiv D x (second s2 c m o k i)).
Proof.
  intros HT HC HS Hm Ho Hk Hi. destruct (ee_deriv s c m o 0 HT HC HS Hm Ho) as (E & HE & _).
  assert (DE : forall x s2, update_skeleton (vary s m o x) = Some s2 -> vderiv E x (dcol s2 c m o)).
  { intros x s2 U. destruct (ee_deriv s c m o x HT HC HS Hm Ho) as (E' & HE' & D). specialize (D s2 U).
    assert (EE : forall t, E' t = E t). { intros t. destruct (vary_update s m o t HT HC Hm) as (s3 & U3). pose proof (HE t s3 U3). pose proof (HE' t s3 U3). congruence. }
    unfold dcol. rewrite (HE x s2 U), <- (EE x). eapply vderiv_ext; [exact EE|exact D]. }
  destruct (frame_deriv s m o k i HT HC Hm Ho Hk Hi) as (W & Tm & A & T & HV & D1 & D2).
  destruct HS as (n & HPa). unfold second. destruct (memb k (ch_bones c)) eqn:Mk.
  2:{ exists (fun _ => vzero). rewrite andb_false_r. split; [|intros; apply vderiv_const]. intros x s2 U. unfold dcol. rewrite (HE x s2 U), memb_dec, Mk. auto. }
  exists (fun x => vcross (A x) (vsub (E x) (T x))).
  assert (HD : forall x s2, update_skeleton (vary s m o x) = Some s2 -> dcol s2 c k i = vcross (A x) (vsub (E x) (T x))).
  { intros x s2 U. unfold dcol. rewrite (HE x s2 U), memb_dec, Mk. unfold jcol. destruct (HV x s2 U) as (_ & _ & -> & ->). auto. }
  split; [exact HD|]. intros x s2 U. pose proof (proj1 (memb_in _ _) Mk) as Ik. destruct (memb m (ch_bones c)) eqn:Mm; cbn [andb].
  - pose proof (proj1 (memb_in _ _) Mm) as Im. pose proof (path_order s n _ m k HT HPa Im Ik) as PO.
    destruct (HV x s2 U) as (EW & ET & EA & EP). rewrite (HD x s2 U).
    assert (DM : dcol s2 c m o = vcross W (vsub (E x) Tm)). { unfold dcol. rewrite (HE x s2 U), memb_dec, Mm. unfold jcol. rewrite EW, ET. auto. }
    specialize (DE x s2 U). rewrite DM in DE.
    destruct (le_lt_dec m k) as [L|L].
    + destruct (D1 (proj2 PO L) x) as [DA DT].
      eapply vderiv_eq; [apply vderiv_cross; [exact DA|apply vderiv_sub; [exact DE|exact DT]]|].
      replace (vsub (vcross W (vsub (E x) Tm)) (vcross W (vsub (T x) Tm))) with (vcross W (vsub (E x) (T x))) by (unfold vcross, vsub; cbn; f_equal; ring).
      destruct (beforeb m o k i) eqn:B.
      * rewrite EW. apply jacobi_id.
      * assert (m = k). { unfold beforeb in B. apply orb_false_iff in B. destruct B as [B _]. apply Nat.ltb_ge in B. lia. } subst k.
        rewrite EA, DM. rewrite vcross_zero_l, vadd_zero_l. rewrite <- ET, EP. auto.
    + assert (ND : ~ desc s m k) by (rewrite PO; lia). destruct (D2 ND x) as [DA DT].
      eapply vderiv_eq; [apply vderiv_cross; [exact DA|apply vderiv_sub; [exact DE|exact DT]]|].
      replace (beforeb m o k i) with false. 2:{ unfold beforeb. replace (m <? k)%nat with false by (symmetry; apply Nat.ltb_ge; lia). replace (m =? k)%nat with false by (symmetry; apply Nat.eqb_neq; lia). auto. }
      rewrite vcross_zero_l, vadd_zero_l, EA, DM. f_equal. unfold vsub, vzero, vcross; cbn. f_equal; ring.
  - assert (NI : ~ In m (ch_bones c)) by (rewrite <- memb_in; congruence).
    assert (ND : ~ desc s m k). { intros D. apply NI. apply (path_desc _ _ _ _ HPa). apply (path_desc _ _ _ _ HPa) in Ik. eapply desc_trans; eauto. }
    specialize (DE x s2 U). unfold dcol in DE. rewrite (HE x s2 U), memb_dec, Mm in DE. destruct (D2 ND x) as [DA DT].
    eapply vderiv_eq; [apply vderiv_cross; [exact DA|apply vderiv_sub; [exact DE|exact DT]]|].
    rewrite vcross_zero_l, vadd_zero_l. replace (vsub vzero vzero) with vzero by (unfold vsub, vzero; cbn; f_equal; ring). apply vcross_zero_r.
Qed.

(** the exact second derivative *)
Definition second_derivative (s : skeleton) (cs : list chain) (m o k i : nat) : R :=
  lsum (map (fun c => vdot (dcol s c m o) (dcol s c k i) - vdot (second s c m o k i) (res s c)) cs).
Lemma gradient_deriv s m o k i : bone_tree s -> codes_ok s -> (m < length s)%nat -> (o < 3)%nat -> (k < length s)%nat -> (i < 3)%nat -> forall cs, (forall c, In c cs -> serial s c) ->
  exists G, (forall x s2, update_skeleton (vary s m o x) = Some s2 -> - lsum (map (fun c => vdot (dcol s2 c k i) (res s2 c)) cs) = G x) /\
  (forall x s2, update_skeleton (vary s m o x) = Some s2 -> derivable_pt_lim G x (second_derivative s2 cs m o k i)).
Proof.
  intros HT HC Hm Ho Hk Hi. induction cs as [|c cs IH]; intros Hc.
  - exists (fun _ => 0). split; intros; cbn; [ring|]. unfold second_derivative. cbn. apply derivable_pt_lim_const.
  - destruct (IH (fun c H => Hc c (or_intror H))) as (G & HG & DG). pose proof (Hc c (or_introl eq_refl)) as HS.
    destruct (dcol_deriv s c m o k i HT HC HS Hm Ho Hk Hi) as (D & HD & DD). destruct (ee_deriv s c m o 0 HT HC HS Hm Ho) as (E & HE & _).
    assert (DE : forall x s2, update_skeleton (vary s m o x) = Some s2 -> vderiv E x (dcol s2 c m o)).
    { intros x s2 U. destruct (ee_deriv s c m o x HT HC HS Hm Ho) as (E' & HE' & D'). specialize (D' s2 U).
      assert (EE : forall t, E' t = E t). { intros t. destruct (vary_update s m o t HT HC Hm) as (s3 & U3). pose proof (HE t s3 U3). pose proof (HE' t s3 U3). congruence. }
      unfold dcol. rewrite (HE x s2 U), <- (EE x). eapply vderiv_ext; [exact EE|exact D']. }
    exists (fun x => - vdot (D x) (vsub (ch_goal c) (E x)) + G x). split.
    + intros x s2 U. cbn [map]. change (lsum (?a :: ?l)) with (a + lsum l). rewrite <- (HG x s2 U), (HD x s2 U). unfold res at 1. rewrite (HE x s2 U). ring.
    + intros x s2 U. unfold second_derivative. cbn [map]. change (lsum (?a :: ?l)) with (a + lsum l).
      apply dlim_plus; [|apply DG; auto].
      eapply dlim_eq; [apply dlim_opp; apply vderiv_dot; [apply DD; exact U|apply vderiv_sub; [apply vderiv_const|apply DE; exact U]]|].
      cbv beta. rewrite <- (HD x s2 U). unfold res. rewrite (HE x s2 U). unfold vdot, vsub, vzero; cbn. ring.
Qed.
