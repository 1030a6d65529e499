(** World poses depend continuously on pairs of joint angles; limits of the second differences. *)
From Coq Require Import Arith.Wf_nat.
From Coquelicot Require Import Coquelicot.
From Verif Require Import Base VecModel QuatModel QuatProofs BvhModel BvhProofs IkModel IkSpec IkProofs IkPose IkDeriv IkJac IkGrad IkHess IkFd FdLimits.
Open Scope R_scope.

Section Cont.
Context (x0 y0 : R).
Definition c2 (f : R -> R -> R) : Prop := continuity_2d_pt f x0 y0.
Definition vc2 (F : R -> R -> vec3) : Prop := c2 (fun x y => vx (F x y)) /\ c2 (fun x y => vy (F x y)) /\ c2 (fun x y => vz (F x y)).
Definition qc2 (F : R -> R -> quat) : Prop := c2 (fun x y => qs (F x y)) /\ c2 (fun x y => qx (F x y)) /\ c2 (fun x y => qy (F x y)) /\ c2 (fun x y => qz (F x y)).
Lemma c2_plus f g : c2 f -> c2 g -> c2 (fun x y => f x y + g x y). Proof. apply continuity_2d_pt_plus. Qed.
Lemma c2_minus f g : c2 f -> c2 g -> c2 (fun x y => f x y - g x y). Proof. apply continuity_2d_pt_minus. Qed.
Lemma c2_mult f g : c2 f -> c2 g -> c2 (fun x y => f x y * g x y). Proof. apply continuity_2d_pt_mult. Qed.
Lemma c2_opp f : c2 f -> c2 (fun x y => - f x y). Proof. apply continuity_2d_pt_opp. Qed.
Lemma c2_const a : c2 (fun _ _ => a). Proof. apply continuity_2d_pt_const. Qed.
Lemma c2_ext f g : (forall x y, f x y = g x y) -> c2 f -> c2 g. Proof. apply continuity_2d_pt_ext. Qed.
Ltac cc := repeat first [assumption | apply c2_const | apply c2_plus | apply c2_minus | apply c2_opp | apply c2_mult].
Lemma vc2_const v : vc2 (fun _ _ => v). Proof. split; [|split]; apply c2_const. Qed.
Lemma qc2_const v : qc2 (fun _ _ => v). Proof. split; [|split; [|split]]; apply c2_const. Qed.
Lemma vc2_add F G : vc2 F -> vc2 G -> vc2 (fun x y => vadd (F x y) (G x y)).
Proof. intros (A & B & C) (D & E & H). split; [|split]; cbn; cc. Qed.
Lemma vc2_sub F G : vc2 F -> vc2 G -> vc2 (fun x y => vsub (F x y) (G x y)).
Proof. intros (A & B & C) (D & E & H). split; [|split]; cbn; cc. Qed.
Lemma vc2_cross F G : vc2 F -> vc2 G -> vc2 (fun x y => vcross (F x y) (G x y)).
Proof. intros (A & B & C) (D & E & H). split; [|split]; cbn; cc. Qed.
Lemma c2_dot F G : vc2 F -> vc2 G -> c2 (fun x y => vdot (F x y) (G x y)).
Proof. intros (A & B & C) (D & E & H). unfold vdot. cc. Qed.
Lemma qc2_prod F G : qc2 F -> qc2 G -> qc2 (fun x y => q_prod (F x y) (G x y)).
Proof. intros (A & B & C & D) (E & H & I' & J). split; [|split; [|split]]; cbn; unfold vdot; cbn; cc. Qed.
Lemma vc2_rotate F G : qc2 F -> vc2 G -> vc2 (fun x y => q_rotate (F x y) (G x y)).
Proof.
  intros HF (A & B & C). assert (H : qc2 (fun x y => q_prod (q_prod (F x y) (mkQ 0 (vx (G x y)) (vy (G x y)) (vz (G x y)))) (q_conj (F x y)))).
  { apply (qc2_prod (fun x y => q_prod (F x y) (mkQ 0 (vx (G x y)) (vy (G x y)) (vz (G x y)))) (fun x y => q_conj (F x y))).
    - apply qc2_prod; auto. split; [|split; [|split]]; cbn; cc.
    - destruct HF as (? & ? & ? & ?). split; [|split; [|split]]; cbn; cc. }
  destruct H as (? & ? & ? & ?). split; [|split]; unfold q_rotate; cbn [qvec vx vy vz]; auto.
Qed.
Lemma c2_1d g f : c2 f -> (forall x, continuity_pt g x) -> c2 (fun x y => g (f x y)).
Proof. intros H C. apply continuity_1d_2d_pt_comp; [apply C|exact H]. Qed.
Lemma qc2_letter c f : c2 f -> qc2 (fun x y => letter_rot c (f x y)).
Proof.
  intros H. assert (CC : c2 (fun x y => cos (f x y / 2))). { apply (c2_1d cos (fun x y => f x y / 2)); [unfold Rdiv; cc|apply continuity_cos]. }
  assert (SS : c2 (fun x y => sin (f x y / 2))). { apply (c2_1d sin (fun x y => f x y / 2)); [unfold Rdiv; cc|apply continuity_sin]. }
  unfold letter_rot. destruct (Nat.eqb c cX); [|destruct (Nat.eqb c cY)]; (split; [|split; [|split]]; cbn; cc).
Qed.
Context (S0 : skeleton) (HT : bone_tree S0) (HC : codes_ok S0) (m o k i : nat) (Ho : (o < 3)%nat) (Hi : (i < 3)%nat).
Definition SS (x y : R) : skeleton := vary2 S0 m o k i x y.
Lemma SS_tree x y : bone_tree (SS x y). Proof. apply vary_tree, vary_tree, HT. Qed.
Lemma SS_codes x y : codes_ok (SS x y). Proof. apply vary_codes, vary_codes, HC. Qed.
Lemma SS_length x y : length (SS x y) = length S0. Proof. unfold SS, vary2. rewrite !vary_length. auto. Qed.
Lemma SS_path x y j l : path S0 j l -> path (SS x y) j l. Proof. intros H. apply vary_path, vary_path, H. Qed.
Definition bone_like (b : bone) (B : R -> R -> bone) : Prop :=
  (forall x y, shape_of (B x y) = shape_of b /\ bn_code (B x y) = bn_code b /\ bn_t (B x y) = bn_t b) /\ (forall q, (q < 3)%nat -> c2 (fun x y => ang q (B x y))).
Lemma bone_set b B f p : (p < 3)%nat -> c2 f -> bone_like b B -> bone_like b (fun x y => set_ang p (B x y) (f x y)).
Proof.
  intros Hp Hf [H1 H2]. split.
  - intros x y. destruct (H1 x y) as (A & C & D). rewrite <- A, <- C, <- D. destruct p as [|[|p]]; auto.
  - intros q Hq. specialize (H2 q Hq). destruct p as [|[|[|p]]]; try lia; destruct q as [|[|[|q]]]; try lia; auto.
Qed.
Lemma bone_cont j b : nth_error S0 j = Some b -> exists B, (forall x y, nth_error (SS x y) j = Some (B x y)) /\ bone_like b B.
Proof.
  intros E. assert (L0 : bone_like b (fun _ _ => b)). { split; [auto|]. intros q _. apply c2_const. }
  assert (H1 : exists B, (forall x y : R, nth_error (vary S0 m o x) j = Some (B x y)) /\ bone_like b B).
  { destruct (Nat.eq_dec j m) as [->|N].
    - exists (fun x _ => set_ang o b x). split; [intros x _; apply vary_at; auto|]. apply (bone_set b (fun _ _ => b) (fun x _ => x)); auto. apply continuity_2d_pt_id1.
    - exists (fun _ _ => b). split; auto. intros. rewrite vary_other; auto. }
  destruct H1 as (B & HB & L). unfold SS, vary2. destruct (Nat.eq_dec j k) as [->|N].
  - exists (fun x y => set_ang i (B x y) y). split; [intros x y; apply vary_at; auto|]. apply (bone_set b B (fun _ y => y)); auto. apply continuity_2d_pt_id2.
  - exists B. split; auto. intros. rewrite vary_other; auto.
Qed.
Lemma rots_cont b B : bone_like b B -> qc2 (fun x y => rotA (B x y)) /\ qc2 (fun x y => rotB (B x y)) /\ qc2 (fun x y => rotC (B x y)).
Proof.
  intros [H1 H2].
  assert (G : forall c q, (q < 3)%nat -> qc2 (fun x y => letter_rot (code_at (B x y) c) (ang q (B x y)))).
  { intros c q Hq. pose proof (qc2_letter (code_at b c) _ (H2 q Hq)) as X. destruct X as (A & C & D & E).
    assert (EQ : forall x y, code_at b c = code_at (B x y) c). { intros x y. unfold code_at. destruct (H1 x y) as (_ & -> & _). auto. }
    split; [|split; [|split]]; (eapply c2_ext; [intros x y; rewrite <- (EQ x y); reflexivity|]; assumption). }
  split; [exact (G 0%nat 0%nat ltac:(lia))|]. split; [exact (G 1%nat 1%nat ltac:(lia))|exact (G 2%nat 2%nat ltac:(lia))].
Qed.
Lemma jrot_cont b B : bone_like b B -> qc2 (fun x y => jrot (B x y)).
Proof. intros H. destruct (rots_cont b B H) as (A & C & D). unfold jrot. apply qc2_prod; auto. apply qc2_prod; auto. Qed.
Lemma axis_cont b B q : bone_like b B -> vc2 (fun x y => axis_local q (B x y)).
Proof.
  intros H. destruct (rots_cont b B H) as (A & C & D). destruct H as [H1 H2].
  assert (LA : forall c, vc2 (fun x y => letter_axis (code_at (B x y) c))).
  { intros c. pose proof (vc2_const (letter_axis (code_at b c))) as (P & Q & W). assert (EQ : forall x y, code_at b c = code_at (B x y) c). { intros x y. unfold code_at. destruct (H1 x y) as (_ & -> & _). auto. }
    split; [|split]; (eapply c2_ext; [intros x y; rewrite <- (EQ x y); reflexivity|]; assumption). }
  destruct q as [|[|q]]; cbn [axis_local]; [apply LA|apply vc2_rotate; auto|]. apply vc2_rotate; auto. apply qc2_prod; auto.
Qed.
Lemma pose_cont j : (j < length S0)%nat -> exists T Q, (forall x y, wpose (SS x y) j (T x y) (Q x y)) /\ vc2 T /\ qc2 Q.
Proof.
  induction j as [j IH] using lt_wf_ind. intros Hj. destruct (nth_error S0 j) as [b|] eqn:E; [|apply nth_error_None in E; lia].
  destruct (bone_cont j b E) as (B & HB & LB). pose proof (jrot_cont b B LB) as CJ. destruct LB as [L1 L2].
  destruct j as [|j].
  - exists (fun x y => bn_t (B x y)), (fun x y => jrot (B x y)). split; [|split; [|exact CJ]].
    + intros x y. apply wp_root; auto. apply (bt_root _ (SS_tree x y)); auto.
    + pose proof (vc2_const (bn_t b)) as (P & Q & W). split; [|split]; (eapply c2_ext; [intros x y; destruct (L1 x y) as (_ & _ & ->); reflexivity|]; assumption).
  - destruct (bt_parent _ HT (S j) b ltac:(lia) E) as (p & Ep & Lp). destruct (IH p Lp ltac:(lia)) as (T & Q & W & CT & CQ).
    exists (fun x y => vadd (T x y) (q_rotate (Q x y) (bn_t b))), (fun x y => q_prod (Q x y) (jrot (B x y))). split; [|split].
    + intros x y. destruct (L1 x y) as (S1 & _ & <-). apply (wp_bone _ p); auto. unfold shape_of in S1. congruence.
    + apply vc2_add; auto. apply vc2_rotate; auto. apply vc2_const.
    + apply qc2_prod; auto.
Qed.
Lemma base_cont j : (j < length S0)%nat -> exists T Q, (forall x y, base_pose (SS x y) j (T x y) (Q x y)) /\ vc2 T /\ qc2 Q.
Proof.
  intros Hj. destruct (nth_error S0 j) as [b|] eqn:E; [|apply nth_error_None in E; lia].
  destruct (bone_cont j b E) as (B & HB & [L1 L2]).
  destruct j as [|j].
  - exists (fun x y => bn_t (B x y)), (fun x y => q_identity). split; [|split; [|apply qc2_const]].
    + intros x y. exists (B x y). split; auto. left. repeat split; auto. apply (bt_root _ (SS_tree x y)); auto.
    + pose proof (vc2_const (bn_t b)) as (P & Q & W). split; [|split]; (eapply c2_ext; [intros x y; destruct (L1 x y) as (_ & _ & ->); reflexivity|]; assumption).
  - destruct (bt_parent _ HT (S j) b ltac:(lia) E) as (p & Ep & Lp). destruct (pose_cont p ltac:(lia)) as (T & Q & W & CT & CQ).
    exists (fun x y => vadd (T x y) (q_rotate (Q x y) (bn_t b))), Q. split; [|split; auto].
    + intros x y. exists (B x y). split; auto. right. exists p, (T x y). destruct (L1 x y) as (S1 & _ & <-). repeat split; auto. unfold shape_of in S1. congruence.
    + apply vc2_add; auto. apply vc2_rotate; auto. apply vc2_const.
Qed.
(** what is read off the updated skeleton *)
Definition vcont_of (g : skeleton -> vec3) : Prop := exists G, (forall x y s2, update_skeleton (SS x y) = Some s2 -> g s2 = G x y) /\ vc2 G.
Lemma axis_of j q : (j < length S0)%nat -> (q < 3)%nat -> vcont_of (fun s => waxis s j q) /\ vcont_of (fun s => wpos s j).
Proof.
  intros Hj Hq. destruct (nth_error S0 j) as [b|] eqn:E; [|apply nth_error_None in E; lia].
  destruct (bone_cont j b E) as (B & HB & LB). destruct (base_cont j Hj) as (T & Q & HBP & CT & CQ).
  assert (WX : forall x y s2, update_skeleton (SS x y) = Some s2 -> waxis s2 j q = q_rotate (Q x y) (axis_local q (B x y)) /\ wpos s2 j = T x y).
  { intros x y s2 U. destruct (update_posed _ _ (SS_tree x y) (SS_codes x y) U) as [HP SJ].
    destruct (strip_nth _ _ _ _ SJ (HB x y)) as (b2 & Hb2 & S2). rewrite <- (axis_local_strip _ _ _ S2).
    apply waxis_eq; auto. eapply same_joints_tree; [exact SJ|apply SS_tree]. eapply same_joints_codes; [exact SJ|apply SS_codes]. eapply base_strip; eauto. }
  split.
  - exists (fun x y => q_rotate (Q x y) (axis_local q (B x y))). split; [intros; apply WX; auto|]. apply vc2_rotate; auto. eapply axis_cont; eauto.
  - exists T. split; auto. intros. apply WX; auto.
Qed.
Lemma res_of c : serial S0 c -> exists E, (forall x y s2, update_skeleton (SS x y) = Some s2 -> get_end_effector c s2 = Some (E x y)) /\ vc2 E.
Proof.
  intros (n & P). destruct (pose_cont n (path_lt _ _ _ P)) as (T & Q & W & CT & CQ). exists (fun x y => vadd (T x y) (q_rotate (Q x y) (ch_tool c))). split.
  - intros x y s2 U. exact (ee_pose (SS x y) c n _ _ s2 (SS_tree x y) (SS_codes x y) (SS_path x y _ _ P) (W x y) U).
  - apply vc2_add; auto. apply vc2_rotate; auto. apply vc2_const.
Qed.
Lemma dcol_of c j q : serial S0 c -> (j < length S0)%nat -> (q < 3)%nat -> vcont_of (fun s => dcol s c j q).
Proof.
  intros HS Hj Hq. destruct (res_of c HS) as (E & HE & CE). destruct (axis_of j q Hj Hq) as [(A & HA & CA) (T & HTt & CT)].
  destruct (in_dec Nat.eq_dec j (ch_bones c)) as [I|N] eqn:ID.
  - exists (fun x y => vcross (A x y) (vsub (E x y) (T x y))). split; [|apply vc2_cross; auto; apply vc2_sub; auto].
    intros x y s2 U. unfold dcol. rewrite (HE x y s2 U), ID. unfold jcol. rewrite (HA x y s2 U), (HTt x y s2 U). auto.
  - exists (fun _ _ => vzero). split; [|apply vc2_const]. intros x y s2 U. unfold dcol. rewrite (HE x y s2 U), ID. auto.
Qed.
Lemma second_of cs p q r w : (forall c, In c cs -> serial S0 c) -> (p < length S0)%nat -> (q < 3)%nat -> (r < length S0)%nat -> (w < 3)%nat ->
  exists H, (forall x y s2, update_skeleton (SS x y) = Some s2 -> second_derivative s2 cs p q r w = H x y) /\ c2 H.
Proof.
  intros HS Hp Hq Hr Hw. induction cs as [|c cs IH].
  - exists (fun _ _ => 0). split; [reflexivity|apply c2_const].
  - destruct IH as (H & HH & CH); [intros; apply HS; right; auto|]. pose proof (HS c (or_introl eq_refl)) as Sc.
    destruct (dcol_of c p q Sc Hp Hq) as (D1 & HD1 & C1). destruct (dcol_of c r w Sc Hr Hw) as (D2 & HD2 & C2). destruct (res_of c Sc) as (E & HE & CE).
    destruct (axis_of p q Hp Hq) as [(A1 & HA1 & CA1) _]. destruct (axis_of r w Hr Hw) as [(A2 & HA2 & CA2) _].
    set (X := fun x y => if (memb p (ch_bones c) && memb r (ch_bones c))%bool then if beforeb p q r w then vcross (A1 x y) (D2 x y) else vcross (A2 x y) (D1 x y) else vzero).
    exists (fun x y => vdot (D1 x y) (D2 x y) - vdot (X x y) (vsub (ch_goal c) (E x y)) + H x y). split.
    + intros x y s2 U. unfold second_derivative. cbn [map]. change (lsum (?a :: ?l)) with (a + lsum l). fold (second_derivative s2 cs p q r w).
      rewrite (HH x y s2 U), (HD1 x y s2 U), (HD2 x y s2 U). unfold second, res, X. rewrite (HE x y s2 U), (HA1 x y s2 U), (HA2 x y s2 U), (HD1 x y s2 U), (HD2 x y s2 U). auto.
    + apply c2_plus; auto. apply c2_minus; apply c2_dot; auto; [|apply vc2_sub; auto; apply vc2_const].
      unfold X. destruct (memb p (ch_bones c) && memb r (ch_bones c))%bool; [|apply vc2_const]. destruct (beforeb p q r w); apply vc2_cross; auto.
Qed.
End Cont.
