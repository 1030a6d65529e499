(** Inverse kinematics: Jacobian, gradient, Hessian (C91 - C93), finite differences (C94, C95). *)
From Verif Require Import Base VecModel QuatModel QuatProofs BvhModel BvhProofs IkModel IkSpec IkProofs IkPose IkDeriv IkJac IkGrad IkHess IkHess2 IkFd FdLimits IkCont IkFd2 Prop_Ik.
Open Scope R_scope.

Lemma angle_index s i : (i < 3 * length s)%nat -> exists m o b, i = (m * 3 + o)%nat /\ (m < length s)%nat /\ (o < 3)%nat /\ nth_error s m = Some b /\ get_angle (Z.of_nat i) s = Some (ang o b).
Proof.
  intros H. destruct (idx_split i) as [E L]. destruct (nth_error s (i / 3)) as [b|] eqn:Eb; [|apply nth_error_None in Eb; lia].
  exists (i / 3)%nat, (i mod 3)%nat, b. split; [auto|]. split; [lia|]. split; [auto|]. split; [auto|]. pose proof (get_angle_nat s _ _ b Eb L) as G. rewrite <- E in G. exact G.
Qed.
Lemma after_vary {A} s m o (get : skeleton -> option A) F : bone_tree s -> codes_ok s -> (m < length s)%nat -> (o < 3)%nat ->
  after_setting s (m * 3 + o) get F <-> (forall x s2, update_skeleton (vary s m o x) = Some s2 -> get s2 = Some (F x)).
Proof.
  intros HT HC Hm Ho. unfold after_setting. split.
  - intros H x s2 U. destruct (H x) as (s1 & s2' & E1 & E2 & E3). rewrite set_angle_vary in E1 by auto. injection E1 as <-. congruence.
  - intros H x. destruct (vary_update s m o x HT HC Hm) as (s2 & U). exists (vary s m o x), s2. rewrite set_angle_vary by auto. auto.
Qed.
Lemma serial_strip s s' c : same_joints s s' -> serial s c -> serial s' c.
Proof. intros SJ (k & P). exists k. eapply path_shape; [apply strip_shape; exact SJ|auto]. Qed.

Lemma updated_facts s s1 : built s -> update_skeleton s = Some s1 -> built s1 /\ bone_tree s1 /\ codes_ok s1 /\ posed s1 /\ s1 <> [] /\ length s1 = length s /\ same_joints s s1.
Proof.
  intros HB U. pose proof (built_tree s HB) as HT0. pose proof (built_codes s HB) as HC0. destruct (update_posed s s1 HT0 HC0 U) as [HP SJ].
  assert (HB1 : built s1) by (eapply built_update; eauto). split; [auto|]. split; [apply built_tree; auto|]. split; [apply built_codes; auto|]. split; [auto|]. split; [|split; [symmetry; apply same_joints_length; auto|auto]].
  intros ->. apply same_joints_length in SJ. destruct s; [|discriminate]. discriminate.
Qed.

(** ** C91 *)
Theorem C91_jacobian s s1 cs : built s -> update_skeleton s = Some s1 -> (forall c, In c cs -> serial s c) ->
  exists J, compute_jacobian cs s1 = Some J /\ m_rows J = (3 * length cs)%nat /\ m_cols J = (3 * length s)%nat /\
  forall n c i, nth_error cs n = Some c -> (i < 3 * length s)%nat ->
    exists E x, after_setting s1 i (get_end_effector c) E /\ get_angle (Z.of_nat i) s1 = Some x /\
      derivable_pt_lim (fun t => vx (E t)) x (m_at J (3 * n) i) /\
      derivable_pt_lim (fun t => vy (E t)) x (m_at J (3 * n + 1) i) /\
      derivable_pt_lim (fun t => vz (E t)) x (m_at J (3 * n + 2) i).
Proof.
  intros HB U HS. destruct (updated_facts s s1 HB U) as (HB1 & HT & HC & HP & NE & LL & SJ).
  assert (HS1 : forall c, In c cs -> serial s1 c) by (intros; eapply serial_strip; eauto).
  destruct (jacobian_ok s1 cs HT HC HP (fun c H => serial_fits s1 c HT (HS1 c H))) as (J & EJ & R & C & V).
  exists J. split; [auto|]. split; [lia|]. split; [lia|]. intros n c i Hn Hi.
  destruct (angle_index s1 i ltac:(lia)) as (m & o & b & -> & Hm & Ho & Hb & G). pose proof (HS1 c (nth_error_In _ _ Hn)) as Sc.
  destruct (ee_deriv s1 c m o (ang o b) HT HC Sc Hm Ho) as (E & HE & D). rewrite vary_same in D by auto. specialize (D s1 (update_idem s1 HT HC HP NE)).
  assert (Ee : get_end_effector c s1 = Some (E (ang o b))) by (apply HE; rewrite vary_same by auto; apply update_idem; auto).
  exists E, (ang o b). split; [apply after_vary; auto|]. split; [auto|]. pose proof (V n c _ m o Hn Ee Ho) as VV.
  assert (D' : vderiv E (ang o b) (get_col3 J (n * 3) (m * 3 + o))) by (rewrite VV; exact D).
  replace (3 * n)%nat with (n * 3)%nat by lia. exact D'.
Qed.

(** ** C92 *)
Lemma objective_partial s1 cs i : bone_tree s1 -> codes_ok s1 -> posed s1 -> s1 <> [] -> (forall c, In c cs -> serial s1 c) -> (i < 3 * length s1)%nat ->
  exists d, gradient_entry cs i s1 = Some d /\ partial_derivative s1 i (compute_objective cs) d.
Proof.
  intros HT HC HP NE HS Hi. destruct (gradient_ok s1 cs HT HC HP (fun c H => serial_fits s1 c HT (HS c H))) as (J & g & EJ & EG & LG & VG).
  destruct (angle_index s1 i Hi) as (m & o & b & -> & Hm & Ho & Hb & G). exists (grad cs s1 m o). unfold gradient_entry. rewrite EJ, EG. split; [rewrite VG by auto; reflexivity|].
  destruct (objective_deriv s1 m o HT HC Hm Ho cs HS) as (F & HF & DF). exists (fun x => (1 / 2) * F x), (ang o b). split; [|split; [auto|]].
  - apply after_vary; auto. intros x s2 U. rewrite objstep_eq, (HF x s2 0 U). f_equal. ring.
  - eapply dlim_eq; [apply (derivable_pt_lim_scal F); apply (DF _ s1)|unfold grad; field]. rewrite vary_same by auto. apply update_idem; auto.
Qed.
Theorem C92_gradient s s1 cs : built s -> update_skeleton s = Some s1 -> (forall c, In c cs -> serial s c) ->
  exists J g, compute_jacobian cs s1 = Some J /\ compute_gradient cs s1 J = Some g /\ length g = (3 * length s)%nat /\
  forall i, (i < 3 * length s)%nat -> exists d, nth_error g i = Some d /\ partial_derivative s1 i (compute_objective cs) d.
Proof.
  intros HB U HS. destruct (updated_facts s s1 HB U) as (HB1 & HT & HC & HP & NE & LL & SJ).
  assert (HS1 : forall c, In c cs -> serial s1 c) by (intros; eapply serial_strip; eauto).
  destruct (gradient_ok s1 cs HT HC HP (fun c H => serial_fits s1 c HT (HS1 c H))) as (J & g & EJ & EG & LG & VG). exists J, g. split; [auto|]. split; [auto|]. split; [lia|].
  intros i Hi. destruct (objective_partial s1 cs i HT HC HP NE HS1 ltac:(lia)) as (d & Ed & P). exists d. split; auto. unfold gradient_entry in Ed. rewrite EJ, EG in Ed. auto.
Qed.
(** the objective is half the sum of the squared distances to the goals *)
Theorem C92_objective s cs es : length es = length cs -> (forall n c e, nth_error cs n = Some c -> nth_error es n = Some e -> get_end_effector c s = Some e) ->
  compute_objective cs s = Some (1 / 2 * fold_right Rplus 0 (map (fun ce => vdot (vsub (ch_goal (fst ce)) (snd ce)) (vsub (ch_goal (fst ce)) (snd ce))) (combine cs es))).
Proof.
  intros L H. unfold compute_objective.
  assert (G : forall cs es a, length es = length cs -> (forall n c e, nth_error cs n = Some c -> nth_error es n = Some e -> get_end_effector c s = Some e) ->
     loop (fun f c => match residual s c with Some r => Some (f + vdot r r) | None => None end) cs a = Some (a + fold_right Rplus 0 (map (fun ce => vdot (vsub (ch_goal (fst ce)) (snd ce)) (vsub (ch_goal (fst ce)) (snd ce))) (combine cs es)))).
  { clear. induction cs as [|c cs IH]; intros [|e es] a L H; cbn in L; try discriminate; [cbn; f_equal; ring|]. cbn [loop combine map fold_right fst snd].
    unfold residual at 1. rewrite (H 0%nat c e eq_refl eq_refl). rewrite (IH es) by (try lia; intros n c' e' A B; apply (H (S n)); auto). f_equal. ring. }
  rewrite (G cs es 0 L H). f_equal. ring.
Qed.

(** ** C93 *)
Lemma gradient_partial s1 cs i j : bone_tree s1 -> codes_ok s1 -> posed s1 -> s1 <> [] -> (forall c, In c cs -> serial s1 c) -> (i < 3 * length s1)%nat -> (j < 3 * length s1)%nat ->
  partial_derivative s1 j (gradient_entry cs i) (second_derivative s1 cs (j / 3) (j mod 3) (i / 3) (i mod 3)).
Proof.
  intros HT HC HP NE HS Hi Hj. destruct (idx_split i) as [Ei Oi]. destruct (idx_split j) as [Ej Oj].
  destruct (nth_error s1 (j / 3)) as [b|] eqn:Hb; [|apply nth_error_None in Hb; lia].
  destruct (gradient_deriv s1 (j / 3) (j mod 3) (i / 3) (i mod 3) HT HC ltac:(lia) Oj ltac:(lia) Oi cs HS) as (G & HG & DG).
  exists G, (ang (j mod 3) b). split; [|split].
  - rewrite Ej at 1. apply after_vary; auto; [lia|]. intros x s2 U.
    assert (HT2 := vary_tree s1 (j / 3) (j mod 3) x HT). assert (HC2 := vary_codes s1 (j / 3) (j mod 3) x HC). destruct (update_posed _ _ HT2 HC2 U) as [HP2 SJ2].
    assert (HS2 : forall c, In c cs -> serial s2 c). { intros c Hc. eapply serial_strip; [exact SJ2|]. destruct (HS c Hc) as (k & P). exists k. apply vary_path; auto. }
    destruct (gradient_ok s2 cs (same_joints_tree _ _ SJ2 HT2) (same_joints_codes _ _ SJ2 HC2) HP2 (fun c H => serial_fits s2 c (same_joints_tree _ _ SJ2 HT2) (HS2 c H))) as (J & g & EJ & EG & LG & VG).
    unfold gradient_entry. rewrite EJ, EG. rewrite Ei at 1. assert (LL : length s2 = length s1) by (rewrite <- (same_joints_length _ _ SJ2), vary_length; auto).
    rewrite VG by (auto; lia). f_equal. apply HG; auto.
  - rewrite Ej at 1. apply get_angle_nat; auto.
  - apply DG. rewrite vary_same by auto. apply update_idem; auto.
Qed.
Lemma lsum_ext {A} (f g : A -> R) l : (forall a, In a l -> f a = g a) -> lsum (map f l) = lsum (map g l).
Proof. induction l as [|a l IH]; intros H; [reflexivity|]. cbn [map]. change (lsum (?x :: ?l)) with (x + lsum l). rewrite IH by (intros; apply H; right; auto). rewrite H by (left; auto). auto. Qed.
Lemma vdot_comm3 u v : vdot u v = vdot v u. Proof. unfold vdot. ring. Qed.
Lemma exact_entry s cs p a q b : (a < 3)%nat -> (b < 3)%nat -> (a = b \/ (p = q /\ (b <= a)%nat) \/ forall c, In c cs -> res s c = vzero) ->
  lsum (map (fun c => vdot (dcol s c p a) (dcol s c q b) - if (memb p (ch_bones c) && memb q (ch_bones c))%bool then cterm s c p a q b else 0) cs) = second_derivative s cs q b p a.
Proof.
  intros Ha Hb C. unfold second_derivative. apply lsum_ext. intros c Hc. rewrite (vdot_comm3 (dcol s c q b)). f_equal. unfold second.
  rewrite (andb_comm (memb q (ch_bones c))). destruct (memb p (ch_bones c) && memb q (ch_bones c))%bool; [|unfold vdot, vzero; cbn; ring].
  destruct C as [<-|[[<- L]|Z]].
  - unfold cterm, beforeb. destruct (Nat.leb_spec p q) as [L|L].
    + destruct (Nat.ltb_spec q p) as [L2|L2]; [lia|]. rewrite Nat.ltb_irrefl, andb_false_r. cbn [orb]. auto.
    + destruct (Nat.ltb_spec q p) as [L2|L2]; [|lia]. cbn [orb]. auto.
  - unfold cterm, beforeb. rewrite Nat.leb_refl, Nat.ltb_irrefl, Nat.eqb_refl. cbn [orb andb]. destruct (Nat.ltb_spec b a); auto. assert (b = a) by lia. subst. auto.
  - unfold cterm. rewrite (Z c Hc). assert (V0 : forall v, vdot v vzero = 0) by (intros v; unfold vdot, vzero; cbn; ring). rewrite V0. destruct (Nat.leb p q); rewrite V0; auto.
Qed.
(** which entries are exact: same joint axis on both sides, or the same bone and column <= row *)
Theorem C93_exact_entries_partial s s1 cs : built s -> update_skeleton s = Some s1 -> (forall c, In c cs -> serial s c) ->
  exists J H, compute_jacobian cs s1 = Some J /\ compute_hessian cs s1 J = Some H /\ m_rows H = (3 * length s)%nat /\ m_cols H = (3 * length s)%nat /\
  forall i j, (i < 3 * length s)%nat -> (j < 3 * length s)%nat -> (i mod 3 = j mod 3 \/ i / 3 = j / 3 /\ j mod 3 <= i mod 3)%nat ->
    partial_derivative s1 j (gradient_entry cs i) (m_at H i j).
Proof.
  intros HB U HS. destruct (updated_facts s s1 HB U) as (HB1 & HT & HC & HP & NE & LL & SJ).
  assert (HS1 : forall c, In c cs -> serial s1 c) by (intros; eapply serial_strip; eauto).
  destruct (hessian_ok s1 cs HT HC HP HS1) as (J & H & EJ & EH & RH & CH & VH). exists J, H. split; [auto|]. split; [auto|]. split; [lia|]. split; [lia|].
  intros i j Hi Hj Hc. destruct (idx_split i) as [Ei Oi]. destruct (idx_split j) as [Ej Oj].
  replace (m_at H i j) with (second_derivative s1 cs (j / 3) (j mod 3) (i / 3) (i mod 3)); [apply gradient_partial; auto; lia|].
  pose proof (VH (i / 3) (i mod 3) (j / 3) (j mod 3) Oi Oj)%nat as X. rewrite <- Ei, <- Ej in X. rewrite X. symmetry. apply exact_entry; auto. tauto.
Qed.
(** the whole matrix is exact where every end effector has reached its goal *)
Theorem C93_at_goal_partial s s1 cs : built s -> update_skeleton s = Some s1 -> (forall c, In c cs -> serial s c) -> (forall c, In c cs -> get_end_effector c s1 = Some (ch_goal c)) ->
  exists J H, compute_jacobian cs s1 = Some J /\ compute_hessian cs s1 J = Some H /\
  forall i j, (i < 3 * length s)%nat -> (j < 3 * length s)%nat -> partial_derivative s1 j (gradient_entry cs i) (m_at H i j).
Proof.
  intros HB U HS HG. destruct (updated_facts s s1 HB U) as (HB1 & HT & HC & HP & NE & LL & SJ).
  assert (HS1 : forall c, In c cs -> serial s1 c) by (intros; eapply serial_strip; eauto).
  destruct (hessian_ok s1 cs HT HC HP HS1) as (J & H & EJ & EH & RH & CH & VH). exists J, H. split; [auto|]. split; [auto|].
  intros i j Hi Hj. destruct (idx_split i) as [Ei Oi]. destruct (idx_split j) as [Ej Oj].
  replace (m_at H i j) with (second_derivative s1 cs (j / 3) (j mod 3) (i / 3) (i mod 3)); [apply gradient_partial; auto; lia|].
  pose proof (VH (i / 3) (i mod 3) (j / 3) (j mod 3) Oi Oj)%nat as X. rewrite <- Ei, <- Ej in X. rewrite X. symmetry. apply exact_entry; auto. right; right.
  intros c Hc. unfold res. rewrite (HG c Hc). unfold vsub, vzero. f_equal; ring.
Qed.
(** what the other entries between different bones are: the second order part of the entry with
    the two joint axes exchanged *)
Theorem C93_exchanged_partial s s1 cs : built s -> update_skeleton s = Some s1 -> (forall c, In c cs -> serial s c) ->
  exists J H, compute_jacobian cs s1 = Some J /\ compute_hessian cs s1 J = Some H /\
  forall p a q b, (p < length s)%nat -> (q < length s)%nat -> p <> q -> (a < 3)%nat -> (b < 3)%nat ->
    exists D, partial_derivative s1 (q * 3 + a) (gradient_entry cs (p * 3 + b)) D /\
    m_at H (p * 3 + a) (q * 3 + b) - m_at (mat_gram J) (p * 3 + a) (q * 3 + b) = D - m_at (mat_gram J) (p * 3 + b) (q * 3 + a).
Proof.
  intros HB U HS. destruct (updated_facts s s1 HB U) as (HB1 & HT & HC & HP & NE & LL & SJ).
  assert (HS1 : forall c, In c cs -> serial s1 c) by (intros; eapply serial_strip; eauto).
  destruct (hessian_ok s1 cs HT HC HP HS1) as (J & H & EJ & EH & RH & CH & VH).
  destruct (jacobian_ok s1 cs HT HC HP (fun c X => serial_fits s1 c HT (HS1 c X))) as (J' & EJ' & RJ & CJ & VJ). assert (J' = J) by congruence. subst J'.
  exists J, H. split; [auto|]. split; [auto|]. intros p a q b Hp Hq Npq Ha Hb.
  exists (second_derivative s1 cs q a p b). split.
  - pose proof (gradient_partial s1 cs (p * 3 + b) (q * 3 + a) HT HC HP NE HS1 ltac:(lia) ltac:(lia)) as X.
    replace ((q * 3 + a) / 3)%nat with q in X by (apply Nat.div_unique with a; lia). replace ((q * 3 + a) mod 3)%nat with a in X by (apply Nat.mod_unique with q; lia).
    replace ((p * 3 + b) / 3)%nat with p in X by (apply Nat.div_unique with b; lia). replace ((p * 3 + b) mod 3)%nat with b in X by (apply Nat.mod_unique with p; lia). exact X.
  - rewrite VH by auto. rewrite !(gram_sum s1 cs J VJ RJ (fun c X => serial_fits s1 c HT (HS1 c X))) by auto. unfold second_derivative. rewrite !lsum_sub. apply lsum_ext. intros c _.
    rewrite (vdot_comm3 (dcol s1 c q a)). unfold second. rewrite (andb_comm (memb q (ch_bones c))). destruct (memb p (ch_bones c) && memb q (ch_bones c))%bool; [|unfold vdot, vzero; cbn; ring].
    unfold cterm, beforeb. destruct (Nat.leb_spec p q) as [L|L].
    + destruct (Nat.ltb_spec q p) as [L2|L2]; [lia|]. replace (q =? p)%nat with false by (symmetry; apply Nat.eqb_neq; lia). cbn [orb andb]. ring.
    + destruct (Nat.ltb_spec q p) as [L2|L2]; [|lia]. cbn [orb]. ring.
Qed.
(** one bone, angles 0, tool (0, 0, 1), goal (0, 1, 0): entry (0, 1) is 0, the derivative is -1 *)
Definition ex_bone : bone := mkBone 0 [90; 89; 90]%nat 0 0 0 q_identity vzero vzero (-1) [].
Definition ex_chain : chain := mkChain [0%nat] (mkV 0 1 0) (mkV 0 0 1).
Lemma zero_rots : q_Rz 0 = q_identity /\ q_Ry 0 = q_identity.
Proof. unfold q_Rz, q_Ry, q_identity. replace (0 / 2) with 0 by field. rewrite cos_0, sin_0. auto. Qed.
Lemma ex_update : update_skeleton [ex_bone] = Some [ex_bone].
Proof.
  unfold update_skeleton. cbn [length update_bone nth_error].
  assert (Ej : joint_rotation ex_bone = Some q_identity).
  { unfold joint_rotation, get_rotation_alpha, get_rotation_beta, get_rotation_gamma, get_rotation. cbn [ex_bone bn_code nth_error bn_alpha bn_beta bn_gamma].
    cbn [Nat.eqb cX cY cZ]. destruct zero_rots as [-> ->]. rewrite !q_prod_id_l. reflexivity. }
  rewrite Ej. cbn [parent_pose is_root ex_bone bn_parent Z.eqb bn_children bn_t list_upd]. change (parent_pose [ex_bone] ex_bone) with (Some (vzero, q_identity)). cbn iota beta zeta.
  rewrite q_rotate_id, q_prod_id_l. cbn [loop]. unfold ex_bone, set_pose. cbn [bn_idx bn_code bn_alpha bn_beta bn_gamma bn_parent bn_children bn_t]. do 3 f_equal. unfold vadd, vzero; cbn. f_equal; ring.
Qed.
Lemma ex_bone_built : built [ex_bone].
Proof. exact (built_root _ 0 0 0 0 0 0 [90; 89; 90]%nat _ built_new eq_refl). Qed.
Lemma ex_serial : serial [ex_bone] ex_chain.
Proof. exists 0%nat. eapply path_root; reflexivity. Qed.
Lemma id_rotate v : q_rotate q_identity v = v.
Proof. apply q_rotate_id. Qed.
Lemma ex_axes : waxis [ex_bone] 0 0 = mkV 0 0 1 /\ waxis [ex_bone] 0 1 = mkV 0 1 0 /\ dcol [ex_bone] ex_chain 0 0 = vzero /\ dcol [ex_bone] ex_chain 0 1 = mkV 1 0 0 /\ res [ex_bone] ex_chain = mkV 0 1 (-1).
Proof.
  assert (JA : joint_axes [ex_bone] ex_bone = Some (mkV 0 0 1, mkV 0 1 0, mkV 0 0 1)).
  { unfold joint_axes, parent_q, get_rotation_alpha, get_rotation_beta, get_axis_alpha, get_axis_beta, get_axis_gamma, get_rotation, get_axis. cbn.
    destruct zero_rots as [-> ->]. rewrite q_prod_id_l, !id_rotate. auto. }
  assert (EE : get_end_effector ex_chain [ex_bone] = Some (mkV 0 0 1)).
  { unfold get_end_effector. cbn. rewrite id_rotate. unfold vadd, vzero. cbn. do 2 f_equal; ring. }
  assert (W0 : waxis [ex_bone] 0 0 = mkV 0 0 1) by (unfold waxis; cbn [nth_error]; rewrite JA; auto).
  assert (W1 : waxis [ex_bone] 0 1 = mkV 0 1 0) by (unfold waxis; cbn [nth_error]; rewrite JA; auto).
  split; [auto|]. split; [auto|]. unfold dcol, res. rewrite EE. unfold jcol. rewrite W0, W1. cbn. unfold vcross, vsub, vzero. cbn. split; [f_equal; ring|split; f_equal; ring].
Qed.
Lemma partial_unique s j get D D' : partial_derivative s j get D -> partial_derivative s j get D' -> D = D'.
Proof.
  intros (F & x & A & G & L) (F' & x' & A' & G' & L'). assert (x' = x) by congruence. subst x'.
  apply (uniqueness_limite F x); auto. apply (dlim_ext F'); auto. intros t. destruct (A t) as (s1 & s2 & E1 & E2 & E3). destruct (A' t) as (s1' & s2' & E1' & E2' & E3'). congruence.
Qed.
Theorem C93_hessian_refuted : ~ (forall s s1 cs, built s -> update_skeleton s = Some s1 -> (forall c, In c cs -> serial s c) ->
  exists J H, compute_jacobian cs s1 = Some J /\ compute_hessian cs s1 J = Some H /\
  forall i j, (i < 3 * length s)%nat -> (j < 3 * length s)%nat -> partial_derivative s1 j (gradient_entry cs i) (m_at H i j)).
Proof.
  intros H. assert (SR : forall c, In c [ex_chain] -> serial [ex_bone] c) by (intros c [<-|[]]; apply ex_serial).
  destruct (H [ex_bone] [ex_bone] [ex_chain] ex_bone_built ex_update SR) as (J & M & EJ & EM & V).
  destruct (updated_facts _ _ ex_bone_built ex_update) as (_ & HT & HC & HP & NE & _ & _).
  destruct (hessian_ok [ex_bone] [ex_chain] HT HC HP SR) as (J' & M' & EJ' & EM' & _ & _ & VM). assert (J' = J) by congruence. subst J'. assert (M' = M) by congruence. subst M'.
  pose proof (V 0%nat 1%nat ltac:(cbn; lia) ltac:(cbn; lia)) as D. pose proof (gradient_partial [ex_bone] [ex_chain] 0 1 HT HC HP NE SR ltac:(cbn; lia) ltac:(cbn; lia)) as D'.
  pose proof (partial_unique _ _ _ _ _ D D') as E. pose proof (VM 0%nat 0%nat 0%nat 1%nat ltac:(lia) ltac:(lia)) as X. cbn [Nat.mul Nat.add] in X. rewrite X in E.
  unfold second_derivative in E. change (1 / 3)%nat with 0%nat in E. change (1 mod 3)%nat with 1%nat in E. change (0 / 3)%nat with 0%nat in E. change (0 mod 3)%nat with 0%nat in E.
  destruct ex_axes as (W0 & W1 & D0 & D1 & RR). cbn [map lsum fold_right] in E. unfold cterm, second in E. cbn [memb existsb ch_bones ex_chain Nat.eqb orb andb Nat.leb beforeb Nat.ltb] in E.
  fold ex_chain in E. change (beforeb 0 1 0 0) with false in E. change (memb 0 (ch_bones ex_chain)) with true in E. cbn [andb Nat.leb] in E. rewrite ?W0, ?W1, ?D0, ?D1, ?RR in E.
  unfold vdot, vcross, vzero in E. cbn in E. lra.
Qed.
(** the result is not even symmetric *)
Theorem C93_symmetric_refuted : ~ (forall s s1 cs J H, built s -> update_skeleton s = Some s1 -> (forall c, In c cs -> serial s c) ->
  compute_jacobian cs s1 = Some J -> compute_hessian cs s1 J = Some H -> forall i j, (i < 3 * length s)%nat -> (j < 3 * length s)%nat -> m_at H i j = m_at H j i).
Proof.
  intros H. assert (SR : forall c, In c [ex_chain] -> serial [ex_bone] c) by (intros c [<-|[]]; apply ex_serial).
  destruct (updated_facts _ _ ex_bone_built ex_update) as (_ & HT & HC & HP & NE & _ & _).
  destruct (hessian_ok [ex_bone] [ex_chain] HT HC HP SR) as (J & M & EJ & EM & _ & _ & VM).
  pose proof (H [ex_bone] [ex_bone] [ex_chain] J M ex_bone_built ex_update SR EJ EM 0%nat 1%nat ltac:(cbn; lia) ltac:(cbn; lia)) as E.
  pose proof (VM 0%nat 0%nat 0%nat 1%nat ltac:(lia) ltac:(lia)) as X. pose proof (VM 0%nat 1%nat 0%nat 0%nat ltac:(lia) ltac:(lia)) as Y. cbn [Nat.mul Nat.add] in X, Y. rewrite X, Y in E.
  destruct ex_axes as (W0 & W1 & D0 & D1 & RR). cbn [map lsum fold_right] in E. unfold cterm in E. change (memb 0 (ch_bones ex_chain)) with true in E. cbn [andb Nat.leb] in E. rewrite ?W0, ?W1, ?D0, ?D1, ?RR in E.
  unfold vdot, vcross, vzero in E. cbn in E. lra.
Qed.
Lemma C93_nonvacuous : exists cs, make_chains ex_skeleton = Some cs /\ length cs = 2%nat /\ (forall c, In c cs -> serial ex_skeleton c) /\ exists s1, update_skeleton ex_skeleton = Some s1.
Proof.
  destruct (C89_chains ex_skeleton ex_built) as (cs & E & P & _). exists cs. split; [auto|]. split; [rewrite (proj1 C89_nonvacuous) in E; injection E as <-; reflexivity|]. split.
  - intros c Hc. destruct (P c Hc) as (_ & _ & k & _ & Pk). exists k. auto.
  - destruct (C88_poses ex_skeleton ex_built) as (s' & U & _); [discriminate|]. eauto.
Qed.

(** ** C94: finite differences *)
Lemma obj_after s cs m o F : built s -> s <> [] -> (forall c, In c cs -> serial s c) -> (m < length s)%nat -> (o < 3)%nat -> after_setting s (m * 3 + o) (compute_objective cs) F -> forall x, obj cs (vary s m o x) = F x.
Proof.
  intros HB N HS Hm Ho A x. pose proof (built_tree s HB) as HT. pose proof (built_codes s HB) as HC. destruct (vary_update s m o x HT HC Hm) as (s2 & U).
  unfold obj, objective_at. rewrite U. rewrite (proj1 (after_vary s m o _ F HT HC Hm Ho) A x s2 U). auto.
Qed.
(** central differences of the objective, at any step length; the angles are put back *)
Theorem C94_gradient_value s cs h : built s -> s <> [] -> (forall c, In c cs -> serial s c) -> h <> 0 ->
  exists g s', fd_gradient cs s h = Some (g, s') /\ length g = (3 * length s)%nat /\ same_joints s s' /\
  forall i F x, (i < 3 * length s)%nat -> after_setting s i (compute_objective cs) F -> get_angle (Z.of_nat i) s = Some x -> nth_error g i = Some ((F (x + h) - F (x - h)) / (2 * h)).
Proof.
  intros HB N HS Hh. pose proof (built_tree s HB) as HT. pose proof (built_codes s HB) as HC. destruct (fd_gradient_ok cs s HT HC N HS h Hh) as (g & s' & E & SJ & L & V).
  exists g, s'. split; [auto|]. split; [lia|]. split; [auto|]. intros i F x Hi A G. destruct (angle_index s i Hi) as (m & o & b & -> & Hm & Ho & Hb & G').
  assert (x = ang o b) by congruence. subst x. rewrite (V m o b Hb Ho). rewrite !(obj_after s cs m o F) by auto. auto.
Qed.
(** and they converge to the gradient *)
Theorem C94_gradient_limit s s1 cs i : built s -> update_skeleton s = Some s1 -> (forall c, In c cs -> serial s c) -> (i < 3 * length s)%nat ->
  exists d, gradient_entry cs i s1 = Some d /\ tends_to (fd_gradient_entry cs s i) d.
Proof.
  intros HB U HS Hi. destruct (updated_facts s s1 HB U) as (HB1 & HT1 & HC1 & HP & NE & LL & SJ). pose proof (built_tree s HB) as HT. pose proof (built_codes s HB) as HC.
  assert (HS1 : forall c, In c cs -> serial s1 c) by (intros; eapply serial_strip; eauto). assert (N : s <> []) by (intros ->; cbn in Hi; lia).
  destruct (gradient_ok s1 cs HT1 HC1 HP (fun c H => serial_fits s1 c HT1 (HS1 c H))) as (J & g & EJ & EG & LG & VG). destruct (idx_split i) as [Ei Oi].
  exists (grad cs s1 (i / 3) (i mod 3)). split.
  - unfold gradient_entry. rewrite EJ, EG. rewrite Ei at 1. apply VG; auto. lia.
  - intros eps He. destruct (limit1 cs s HT HC HS i s1 ltac:(lia) U eps He) as (d & Hd & L). exists d. split; auto. intros h Nh Lh.
    exists (fdv1 cs s h i). split; [|apply L; auto]. unfold fd_gradient_entry. destruct (fd_gradient_list cs s HT HC N HS h Nh) as (s' & -> & _). apply nth_map_seq. lia.
Qed.
(** the finite difference Hessian converges to the second derivatives of the objective *)
Theorem C94_hessian_limit s s1 cs i j : built s -> update_skeleton s = Some s1 -> (forall c, In c cs -> serial s c) -> (i < 3 * length s)%nat -> (j < 3 * length s)%nat ->
  exists D, partial_derivative s1 j (gradient_entry cs i) D /\ tends_to (fd_hessian_entry cs s i j) D.
Proof.
  intros HB U HS Hi Hj. destruct (updated_facts s s1 HB U) as (HB1 & HT1 & HC1 & HP & NE & LL & SJ). pose proof (built_tree s HB) as HT. pose proof (built_codes s HB) as HC.
  assert (HS1 : forall c, In c cs -> serial s1 c) by (intros; eapply serial_strip; eauto). assert (N : s <> []) by (intros ->; cbn in Hi; lia).
  exists (second_derivative s1 cs (j / 3) (j mod 3) (i / 3) (i mod 3)). split; [apply gradient_partial; auto; lia|].
  intros eps He. destruct (limit2 cs s HT HC HS i j s1 ltac:(lia) ltac:(lia) U eps He) as (d & Hd & L). exists d. split; auto. intros h Nh Lh.
  exists (fdv2 cs s h i j). split; [|apply L; auto]. unfold fd_hessian_entry. destruct (fd_hessian_list cs s HT HC N HS h Nh) as (s' & -> & _).
  rewrite nth_error_map, (nth_error_nth' _ 0%nat) by (rewrite seq_length; lia). rewrite seq_nth by lia. cbn [option_map Nat.add]. rewrite nth_error_map, (nth_error_nth' _ 0%nat) by (rewrite seq_length; lia). rewrite seq_nth by lia. reflexivity.
Qed.
Lemma C94_nonvacuous : exists g s', fd_gradient [ex_chain] [ex_bone] 1 = Some (g, s') /\ length g = 3%nat.
Proof.
  destruct (C94_gradient_value [ex_bone] [ex_chain] 1 ex_bone_built) as (g & s' & E & L & _); [discriminate|intros c [<-|[]]; apply ex_serial|lra|]. exists g, s'. split; auto.
Qed.

(** ** C95: what the finite difference functions do to the skeleton *)
Theorem C95_joints_kept_partial s cs h : built s -> s <> [] -> (forall c, In c cs -> serial s c) -> h <> 0 ->
  (exists g s', fd_gradient cs s h = Some (g, s') /\ same_joints s s') /\ (exists D s', fd_hessian cs s h = Some (D, s') /\ same_joints s s').
Proof.
  intros HB N HS Hh. pose proof (built_tree s HB) as HT. pose proof (built_codes s HB) as HC. split.
  - destruct (fd_gradient_list cs s HT HC N HS h Hh) as (s' & E & SJ). eauto.
  - destruct (fd_hessian_list cs s HT HC N HS h Hh) as (s' & E & SJ). eauto.
Qed.
(** the stored poses, however, are those of the last evaluation: the last angle minus h *)
Lemma fd_first_state cs s m o h b d s' : bone_tree s -> codes_ok s -> nth_error s m = Some b -> (o < 3)%nat -> fd_first cs s (m * 3 + o) h = Some (d, s') ->
  exists u, update_skeleton (vary s m o (ang o b - h)) = Some u /\ s' = vary u m o (ang o b).
Proof.
  intros HT HC Hb Ho E. pose proof (nth_lt _ _ _ Hb) as Lm. unfold fd_first in E. rewrite (get_angle_nat s m o b Hb Ho) in E. set (t := ang o b) in *.
  rewrite set_angle_vary in E by auto. unfold objective_at in E at 1. destruct (update_skeleton (vary s m o (t + h))) as [u1|] eqn:U1; [|discriminate]. destruct (compute_objective cs u1) as [f1|]; [|discriminate].
  assert (J1 : same_joints (vary s m o (t + h)) u1) by (apply update_strip; auto). assert (L1 : length u1 = length s) by (rewrite <- (same_joints_length _ _ J1), vary_length; auto).
  rewrite set_angle_vary in E by (auto; lia). unfold objective_at in E at 1. destruct (update_skeleton (vary u1 m o (t - h))) as [u2|] eqn:U2; [|discriminate]. destruct (compute_objective cs u2) as [f2|]; [|discriminate].
  assert (J2 : same_joints (vary u1 m o (t - h)) u2) by (apply update_strip; auto). assert (L2 : length u2 = length s) by (rewrite <- (same_joints_length _ _ J2), vary_length; auto).
  rewrite set_angle_vary in E by (auto; lia). destruct (Reqb h 0); [discriminate|]. injection E as _ <-. exists u2. split; auto. rewrite <- U2. symmetry. apply update_joints.
  - apply vary_tree; auto.
  - apply vary_codes; auto.
  - rewrite <- (vary_vary s m o (t + h) (t - h)). apply vary_joints; auto.
Qed.
Theorem C95_poses_left s cs h g s' : built s -> s <> [] -> (forall c, In c cs -> serial s c) -> h <> 0 -> fd_gradient cs s h = Some (g, s') ->
  exists x v u, let last := Z.of_nat (3 * length s - 1) in get_angle last s = Some x /\ set_angle last (x - h) s = Some v /\ update_skeleton v = Some u /\ set_angle last x u = Some s'.
Proof.
  intros HB N HS Hh E. pose proof (built_tree s HB) as HT. pose proof (built_codes s HB) as HC.
  assert (LP : (0 < length s)%nat) by (destruct s; [congruence|cbn; lia]). set (m := (length s - 1)%nat). destruct (nth_error s m) as [b|] eqn:Hb; [|apply nth_error_None in Hb; unfold m in Hb; lia].
  unfold fd_gradient in E. replace (length s * 3)%nat with (S (m * 3 + 2)) in E by (unfold m; lia). rewrite seq_S, loop_app in E. cbn [Nat.add] in E.
  match type of E with (match ?l with _ => _ end) = _ => destruct l as [[l1 s1]|] eqn:E1; [|discriminate] end. cbn [loop snd fst] in E.
  destruct (fd_first cs s1 (m * 3 + 2) h) as [[d s2]|] eqn:F; [|discriminate]. injection E as _ <-.
  assert (J1 : same_joints s s1).
  { destruct (append_loop (fun s i => fd_first cs s i h) (same_joints s) (fdv1 cs s h) (m * 3 + 2)) with (s0 := s) as (s1' & E1' & J1); [|reflexivity|].
    - intros t i SJ Hi. destruct (idx_ok s i ltac:(unfold m in Hi; lia)) as (b' & Hb' & L & Ei & A). destruct (fd_first_ok cs s HT HC N HS t (i / 3) (i mod 3) h b' SJ L Hb' Hh) as (t' & E' & J'). rewrite <- Ei in E'. exists t'. split; auto. rewrite E'. unfold fdv1, obj1. rewrite A. auto.
    - rewrite E1' in E1. injection E1 as _ <-. auto. }
  destruct (strip_nth _ _ _ _ J1 Hb) as (b1 & Hb1 & Sb). destruct (fd_first_state cs s1 m 2 h b1 d s2 (same_joints_tree _ _ J1 HT) (same_joints_codes _ _ J1 HC) Hb1 ltac:(lia) F) as (u & U & ->).
  assert (AB : ang 2 b1 = ang 2 b) by (apply strip_ang; auto). rewrite AB in *.
  assert (Lm : (m < length s)%nat) by (unfold m; lia).
  exists (ang 2 b), (vary s m 2 (ang 2 b - h)), u. replace (3 * length s - 1)%nat with (m * 3 + 2)%nat by (unfold m; lia). cbn zeta.
  split; [apply get_angle_nat; auto|]. split; [apply set_angle_vary; auto|].
  assert (U' : update_skeleton (vary s m 2 (ang 2 b - h)) = Some u). { rewrite <- U. symmetry. apply update_joints; [apply vary_tree; auto|apply vary_codes; auto|apply vary_joints; auto]. }
  split; [exact U'|]. apply set_angle_vary; auto. pose proof (update_strip _ _ U') as SJ. rewrite <- (same_joints_length _ _ SJ), vary_length. auto.
Qed.
Theorem C95_unchanged_refuted : ~ (forall s cs h g s', built s -> update_skeleton s = Some s -> (forall c, In c cs -> serial s c) -> h <> 0 -> fd_gradient cs s h = Some (g, s') -> s' = s).
Proof.
  intros H. assert (SR : forall c, In c [ex_chain] -> serial [ex_bone] c) by (intros c [<-|[]]; apply ex_serial).
  assert (HP : PI <> 0) by (pose proof PI_RGT_0; lra).
  destruct (C94_gradient_value [ex_bone] [ex_chain] PI ex_bone_built) as (g & s' & E & _); auto; [discriminate|].
  pose proof (H [ex_bone] [ex_chain] PI g s' ex_bone_built ex_update SR HP E) as X. subst s'.
  destruct (C95_poses_left [ex_bone] [ex_chain] PI g [ex_bone] ex_bone_built) as (x & v & u & G & S1 & U & S2); auto; [discriminate|].
  cbn [length Nat.mul Nat.add Nat.sub] in *. change (Z.of_nat 2) with 2%Z in *. injection G as <-. injection S1 as <-.
  unfold update_skeleton in U. cbn [length update_bone nth_error list_upd] in U. unfold joint_rotation, get_rotation_alpha, get_rotation_beta, get_rotation_gamma, get_rotation in U.
  cbn [ex_bone set_gamma bn_idx bn_code nth_error bn_alpha bn_beta bn_gamma bn_q bn_tw bn_t bn_parent bn_children Nat.eqb cX cY cZ] in U. destruct zero_rots as [Z1 Z2]. rewrite Z1, Z2 in U.
  cbn [parent_pose has_parent is_root bn_parent Z.eqb negb loop] in U. injection U as <-.
  unfold set_angle in S2. cbn in S2. unfold ex_bone in S2. apply (f_equal (fun o => match o with Some (b :: _) => qs (bn_q b) | _ => 0 end)) in S2. cbn in S2. unfold vdot in S2. cbn in S2.
  replace ((0 - PI) / 2) with (- (PI / 2)) in S2 by field. rewrite cos_neg, cos_PI2 in S2. lra.
Qed.
Print Assumptions C91_jacobian.
Print Assumptions C92_gradient.
Print Assumptions C92_objective.
Print Assumptions C93_exact_entries_partial.
Print Assumptions C93_at_goal_partial.
Print Assumptions C93_exchanged_partial.
Print Assumptions C93_hessian_refuted.
Print Assumptions C93_symmetric_refuted.
Print Assumptions C94_gradient_value.
Print Assumptions C94_gradient_limit.
Print Assumptions C94_hessian_limit.
Print Assumptions C95_joints_kept_partial.
Print Assumptions C95_poses_left.
Print Assumptions C95_unchanged_refuted.
