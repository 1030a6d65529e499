(** update_skeleton computes the world poses. *)
From Coq Require Import Arith.Wf_nat.
From Verif Require Import Base VecModel QuatModel QuatProofs BvhModel BvhProofs IkModel IkSpec IkProofs.
Open Scope R_scope.

Definition code_at (b : bone) (i : nat) : nat := nth i (bn_code b) 0%nat.
Definition rotA (b : bone) := letter_rot (code_at b 0) (bn_alpha b).
Definition rotB (b : bone) := letter_rot (code_at b 1) (bn_beta b).
Definition rotC (b : bone) := letter_rot (code_at b 2) (bn_gamma b).
Definition jrot (b : bone) : quat := q_prod (rotA b) (q_prod (rotB b) (rotC b)).
Lemma code_get b : is_valid_euler_code (bn_code b) = true -> forall i, (i < 3)%nat ->
  letter (code_at b i) /\ get_axis b i = Some (letter_axis (code_at b i)) /\ (forall x, get_rotation b i x = Some (letter_rot (code_at b i) x)).
Proof.
  intros V i Hi. destruct (valid_letters _ V) as (x & y & z & E & L1 & L2 & L3).
  assert (N : nth_error (bn_code b) i = Some (code_at b i) /\ letter (code_at b i)).
  { unfold code_at. rewrite E. destruct i as [|[|[|i]]]; cbn; auto. lia. }
  destruct N as [N L]. split; auto. apply letter_get; auto.
Qed.
Lemma joint_rotation_eq b : is_valid_euler_code (bn_code b) = true -> joint_rotation b = Some (jrot b).
Proof.
  intros V. unfold joint_rotation, get_rotation_alpha, get_rotation_beta, get_rotation_gamma.
  rewrite (proj2 (proj2 (code_get b V 0%nat ltac:(lia)))), (proj2 (proj2 (code_get b V 1%nat ltac:(lia)))), (proj2 (proj2 (code_get b V 2%nat ltac:(lia)))). reflexivity.
Qed.
Lemma jrot_unit b : is_unit (jrot b).
Proof. repeat apply is_unit_prod; apply letter_rot_unit. Qed.
Lemma jrot_strip b b' : strip b = strip b' -> jrot b = jrot b'.
Proof. unfold strip, jrot, rotA, rotB, rotC, code_at. congruence. Qed.

(** world poses as the code represents them *)
Inductive wpose (s : skeleton) : nat -> vec3 -> quat -> Prop :=
| wp_root b : nth_error s 0 = Some b -> bn_parent b = (-1)%Z -> wpose s 0 (bn_t b) (jrot b)
| wp_bone p k b T Q : nth_error s k = Some b -> bn_parent b = Z.of_nat p -> wpose s p T Q -> wpose s k (vadd T (q_rotate Q (bn_t b))) (q_prod Q (jrot b)).

Lemma strip_nth s s' k b : same_joints s s' -> nth_error s k = Some b -> exists b', nth_error s' k = Some b' /\ strip b' = strip b.
Proof.
  unfold same_joints. intros E H. assert (X : nth_error (map strip s') k = Some (strip b)) by (rewrite <- E; apply map_nth_error; auto).
  rewrite nth_error_map in X. destruct (nth_error s' k) as [b'|]; [|discriminate]. cbn in X. exists b'. split; auto. congruence.
Qed.
Lemma wpose_strip s s' k T Q : same_joints s s' -> wpose s k T Q -> wpose s' k T Q.
Proof.
  intros E H. induction H.
  - destruct (strip_nth _ _ _ _ E H) as (b' & A & B). rewrite <- (jrot_strip _ _ B). replace (bn_t b) with (bn_t b') by (unfold strip in B; congruence).
    apply wp_root; auto. unfold strip in B; congruence.
  - destruct (strip_nth _ _ _ _ E H) as (b' & A & B). rewrite <- (jrot_strip _ _ B). replace (bn_t b) with (bn_t b') by (unfold strip in B; congruence).
    eapply wp_bone; eauto. unfold strip in B; congruence.
Qed.
Lemma wpose_unique s k T Q : wpose s k T Q -> forall T' Q', wpose s k T' Q' -> T' = T /\ Q' = Q.
Proof.
  induction 1; intros T' Q' H'; inversion H'; subst.
  - assert (b0 = b) by congruence. subst. auto.
  - assert (b0 = b) by congruence. subst. lia.
  - assert (b0 = b) by congruence. subst. lia.
  - assert (b0 = b) by congruence. subst. assert (p0 = p) by lia. subst. destruct (IHwpose _ _ H4). subst. auto.
Qed.
Lemma wpose_unit s k T Q : wpose s k T Q -> is_unit Q.
Proof. induction 1; [apply jrot_unit|]. apply is_unit_prod; auto. apply jrot_unit. Qed.
Lemma wpose_exists s k : bone_tree s -> (k < length s)%nat -> exists T Q, wpose s k T Q.
Proof.
  intros HT. induction k as [k IH] using lt_wf_ind. intros Hk.
  destruct (nth_error s k) as [b|] eqn:E; [|apply nth_error_None in E; lia].
  destruct k as [|k]; [exists (bn_t b), (jrot b); apply wp_root; auto; eapply bt_root; eauto|].
  destruct (bt_parent s HT (S k) b ltac:(lia) E) as (p & Ep & Lp). destruct (IH p Lp ltac:(lia)) as (T & Q & H). eexists _, _. eapply wp_bone; eauto.
Qed.

(** descendants *)
Inductive desc (s : skeleton) (k : nat) : nat -> Prop :=
| desc_refl : desc s k k
| desc_child p j : desc s k p -> parent_is s p j -> desc s k j.
Lemma parent_lt s p j : bone_tree s -> parent_is s p j -> (p < j)%nat.
Proof.
  intros HT (b & H & E). destruct j; [rewrite (bt_root s HT _ H) in E; lia|]. destruct (bt_parent s HT (S j) b ltac:(lia) H) as (q & Eq & Lq). lia.
Qed.
Lemma parent_uniq s p q j : parent_is s p j -> parent_is s q j -> p = q.
Proof. intros (b & H & E) (b' & H' & E'). assert (b = b') by congruence. subst. lia. Qed.
Lemma desc_ge s k j : bone_tree s -> desc s k j -> (k <= j)%nat.
Proof. intros HT. induction 1; auto. pose proof (parent_lt _ _ _ HT H0). lia. Qed.
Lemma desc_trans s a b c : desc s a b -> desc s b c -> desc s a c.
Proof. intros H. induction 1; auto. eapply desc_child; eauto. Qed.
(** a proper descendant is a descendant of a child *)
Lemma desc_inv s k j : desc s k j -> j = k \/ exists c, parent_is s k c /\ desc s c j.
Proof.
  induction 1; auto. right. destruct IHdesc as [->|(c & Hc & Hd)].
  - exists j. split; auto. constructor.
  - exists c. split; auto. eapply desc_child; eauto.
Qed.
Lemma desc_disjoint s k c d j : bone_tree s -> parent_is s k c -> parent_is s k d -> desc s c j -> desc s d j -> c = d.
Proof.
  intros HT Hc Hd H. revert d Hd. induction H as [|p j H IH Hp]; intros d Hd H'.
  - inversion H'; subst; auto. assert (p = k) by (eapply parent_uniq; eauto). subst p.
    match goal with X : desc s d k |- _ => pose proof (desc_ge _ _ _ HT X) end. pose proof (parent_lt _ _ _ HT Hd). lia.
  - inversion H'; subst.
    + assert (p = k) by (eapply parent_uniq; eauto). subst p. pose proof (desc_ge _ _ _ HT H). pose proof (parent_lt _ _ _ HT Hc). lia.
    + assert (p0 = p) by (eapply parent_uniq; eauto). subst p0. auto.
Qed.
Lemma desc_root s j : bone_tree s -> (j < length s)%nat -> desc s 0 j.
Proof.
  intros HT. induction j as [j IH] using lt_wf_ind. intros Hj. destruct j as [|j]; [constructor|].
  destruct (nth_error s (S j)) as [b|] eqn:E; [|apply nth_error_None in E; lia].
  destruct (bt_parent s HT (S j) b ltac:(lia) E) as (p & Ep & Lp). apply (desc_child s 0 p); [apply IH; lia|]. exists b; auto.
Qed.
Lemma parent_is_strip s s' p j : same_joints s s' -> parent_is s p j -> parent_is s' p j.
Proof. intros E (b & H & P). destruct (strip_nth _ _ _ _ E H) as (b' & A & B). exists b'. split; auto. unfold strip in B. congruence. Qed.
Lemma desc_strip s s' k j : same_joints s s' -> desc s k j -> desc s' k j.
Proof. intros E. induction 1; [constructor|]. eapply desc_child; eauto. eapply parent_is_strip; eauto. Qed.

(** bone [j] of [s] stores its world pose *)
Definition right_pose (s : skeleton) (j : nat) : Prop := exists b, nth_error s j = Some b /\ wpose s j (bn_tw b) (bn_q b).

Lemma same_joints_sym s s' : same_joints s s' -> same_joints s' s.
Proof. unfold same_joints. auto. Qed.
Lemma same_joints_trans s s' s'' : same_joints s s' -> same_joints s' s'' -> same_joints s s''.
Proof. unfold same_joints. congruence. Qed.
Lemma same_joints_tree s s' : same_joints s s' -> bone_tree s -> bone_tree s'.
Proof. intros E. apply tree_shape. apply strip_shape; auto. Qed.
Lemma same_joints_codes s s' : same_joints s s' -> codes_ok s -> codes_ok s'.
Proof. intros E. apply codes_map. symmetry. apply strip_code; auto. Qed.
Lemma same_joints_length s s' : same_joints s s' -> length s = length s'.
Proof. unfold same_joints. intros E. rewrite <- (map_length strip s), E. apply map_length. Qed.
Lemma right_keep s s' j : same_joints s s' -> nth_error s' j = nth_error s j -> right_pose s j -> right_pose s' j.
Proof. intros E N (b & Hb & W). exists b. split; [congruence|]. eapply wpose_strip; eauto. Qed.

Lemma update_bone_ok f : forall s k, bone_tree s -> codes_ok s -> (k < length s)%nat -> (length s <= f + k)%nat ->
  (forall p, parent_is s p k -> right_pose s p) ->
  exists s', update_bone f s k = Some s' /\ same_joints s s' /\ (forall j, ~ desc s k j -> nth_error s' j = nth_error s j) /\ (forall j, desc s k j -> right_pose s' j).
Proof.
  induction f as [|f IH]; intros s k HT HC Hk Hf HP; [lia|]. cbn.
  destruct (nth_error s k) as [b|] eqn:E; [|apply nth_error_None in E; lia].
  rewrite joint_rotation_eq by (eapply HC; eauto).
  assert (PP : exists tp qp, parent_pose s b = Some (tp, qp) /\ wpose s k (vadd tp (q_rotate qp (bn_t b))) (q_prod qp (jrot b))).
  { unfold parent_pose, has_parent, is_root. destruct k as [|k].
    - rewrite (bt_root s HT _ E). cbn. exists vzero, q_identity. split; auto. rewrite q_rotate_id, q_prod_id_l.
      replace (vadd vzero (bn_t b)) with (bn_t b) by (unfold vadd, vzero; destruct (bn_t b); cbn; f_equal; ring). apply wp_root; auto. eapply bt_root; eauto.
    - destruct (bt_parent s HT (S k) b ltac:(lia) E) as (p & Ep & Lp). rewrite Ep.
      replace (Z.of_nat p =? -1)%Z with false by (symmetry; apply Z.eqb_neq; lia). cbn [negb]. rewrite py_get_nat.
      destruct (HP p) as (pb & Hpb & W); [exists b; auto|]. rewrite Hpb. exists (bn_tw pb), (bn_q pb). split; auto. eapply wp_bone; eauto. }
  destruct PP as (tp & qp & -> & WK).
  set (b1 := set_pose b (vadd tp (q_rotate qp (bn_t b))) (q_prod qp (jrot b))). set (s1 := list_upd s k b1).
  assert (S1 : same_joints s s1) by (unfold same_joints, s1; symmetry; eapply map_upd; eauto).
  assert (R1 : right_pose s1 k). { exists b1. split; [apply list_upd_same; auto|]. cbn. eapply wpose_strip; eauto. }
  assert (CH : forall j, In j (bn_children b) <-> parent_is s k j) by (intros; eapply bt_children; eauto).
  assert (ND : NoDup (bn_children b)) by (eapply bt_nodup; eauto).
  (* the loop over the children *)
  assert (LOOP : forall l, NoDup l -> (forall c, In c l -> parent_is s k c) -> forall s2, same_joints s s2 -> right_pose s2 k ->
    exists s', loop (update_bone f) l s2 = Some s' /\ same_joints s s' /\
      (forall j, ~ (exists c, In c l /\ desc s c j) -> nth_error s' j = nth_error s2 j) /\
      (forall j, (exists c, In c l /\ desc s c j) -> right_pose s' j)).
  { induction l as [|c l IHl]; intros NDl Hl s2 S2 R2; cbn.
    - exists s2. split; [|split; [|split]]; auto. intros j (c & [] & _).
    - inversion NDl as [|? ? Nc NDl']; subst. pose proof (Hl c (or_introl eq_refl)) as Pc.
      assert (Kc : (k < c)%nat) by (eapply parent_lt; eauto).
      destruct (IH s2 c) as (s3 & U3 & S3 & O3 & D3).
      + eapply same_joints_tree; eauto.
      + eapply same_joints_codes; eauto.
      + destruct Pc as (bc & Hc & _). apply nth_lt in Hc. rewrite <- (same_joints_length _ _ S2). auto.
      + rewrite <- (same_joints_length _ _ S2). lia.
      + intros p Hp. assert (p = k); [|subst; auto]. eapply parent_uniq; [exact (parent_is_strip _ _ _ _ (same_joints_sym _ _ S2) Hp)|auto].
      + assert (S3' : same_joints s s3) by (eapply same_joints_trans; eauto).
        assert (TD : forall c j, desc s c j <-> desc s2 c j) by (intros; split; apply desc_strip; auto; apply same_joints_sym; auto).
        destruct (IHl NDl' (fun c Hc => Hl c (or_intror Hc)) s3 S3') as (s4 & U4 & S4 & O4 & D4).
        { eapply right_keep; [exact S3| |exact R2]. apply O3. intros D. apply TD in D. pose proof (desc_ge _ _ _ HT D). lia. }
        rewrite U3. exists s4. split; [auto|split; [auto|split]].
        * intros j Hj. rewrite O4.
          -- apply O3. intros D. apply Hj. exists c. split; [left; auto|]. apply TD; auto.
          -- intros (c' & Hc' & D). apply Hj. exists c'. split; [right; auto|auto].
        * intros j (c' & [<-|Hc'] & D); [|apply D4; eauto].
          eapply right_keep; [exact (same_joints_trans _ _ _ (same_joints_sym _ _ S3') S4)| |apply D3; apply TD; auto]. apply O4. intros (c'' & Hc'' & D'').
          assert (c = c'') by (eapply desc_disjoint; [exact HT|exact Pc|exact (Hl c'' (or_intror Hc''))|exact D|exact D'']). subst c''. contradiction. }
  destruct (LOOP (bn_children b) ND (fun c Hc => proj1 (CH c) Hc) s1 S1 R1) as (s' & U & SS & O & D).
  exists s'. split; [auto|split; [auto|split]].
  - intros j Hj. rewrite O.
    + unfold s1. apply list_upd_other. intros ->. apply Hj. constructor.
    + intros (c & Hc & Dc). apply Hj. apply CH in Hc. eapply desc_trans; [|exact Dc]. eapply desc_child; [constructor|auto].
  - intros j Hj. destruct (desc_inv _ _ _ Hj) as [->|(c & Hc & Dc)].
    + eapply right_keep; [exact (same_joints_trans _ _ _ (same_joints_sym _ _ S1) SS)| |exact R1]. apply O. intros (c & Hc & Dc). apply CH in Hc.
      pose proof (parent_lt _ _ _ HT Hc). pose proof (desc_ge _ _ _ HT Dc). lia.
    + apply D. exists c. split; [apply CH; auto|auto].
Qed.

Lemma update_skeleton_ok s : bone_tree s -> codes_ok s -> s <> [] -> exists s', update_skeleton s = Some s' /\ same_joints s s' /\ (forall j, (j < length s)%nat -> right_pose s' j).
Proof.
  intros HT HC HN. unfold update_skeleton. destruct (update_bone_ok (length s) s 0 HT HC) as (s' & U & SJ & O & D).
  - destruct s; [congruence|cbn; lia].
  - lia.
  - intros p Hp. pose proof (parent_lt _ _ _ HT Hp). lia.
  - exists s'. split; [auto|split; [auto|]]. intros j Hj. apply D. apply desc_root; auto.
Qed.
Lemma list_ext_nth {A} (l : list A) : forall l', (forall j, nth_error l j = nth_error l' j) -> l = l'.
Proof.
  induction l as [|a l IH]; intros [|a' l'] N; auto; try (specialize (N 0%nat); discriminate).
  pose proof (N 0%nat) as N0. cbn in N0. f_equal; [congruence|]. apply IH. intros j. exact (N (S j)).
Qed.
(** ... and only depends on the joints *)
Lemma right_ext s s' : same_joints s s' -> (forall j, (j < length s)%nat -> right_pose s j) -> (forall j, (j < length s)%nat -> right_pose s' j) -> s = s'.
Proof.
  intros SJ R R'. assert (N : forall j, nth_error s j = nth_error s' j).
  { intros j. destruct (Nat.lt_ge_cases j (length s)) as [L|L].
    - destruct (R j L) as (b & Hb & W). destruct (R' j L) as (b' & Hb' & W'). rewrite Hb, Hb'. f_equal.
      destruct (wpose_unique _ _ _ _ (wpose_strip _ _ _ _ _ SJ W) _ _ W') as [E1 E2]. destruct (strip_nth _ _ _ _ SJ Hb) as (b'' & X & Y). assert (b'' = b') by congruence. subst b''.
      unfold strip in Y. destruct b, b'; cbn in *. congruence.
    - rewrite (proj2 (nth_error_None _ _)) by auto. symmetry. apply nth_error_None. rewrite <- (same_joints_length _ _ SJ). auto. }
  apply list_ext_nth; auto.
Qed.

(** ** the specification's matrices *)
Lemma turn_umat c x : letter c -> turn x c (umat (letter_rot c x)).
Proof.
  assert (H : forall y, cos y = 1 - 2 * sin (y/2) * sin (y/2) /\ cos y = 2 * cos (y/2) * cos (y/2) - 1 /\ sin y = 2 * sin (y/2) * cos (y/2)).
  { intros y. assert (E : 2 * (y/2) = y) by field. pose proof (sin_2a (y/2)) as A. pose proof (cos_2a_sin (y/2)) as B. pose proof (cos_2a_cos (y/2)) as C. rewrite E in A, B, C. lra. }
  destruct (H x) as (H1 & H2 & H3). intros [->|[->| ->]]; unfold letter_rot; cbn [Nat.eqb cX cY cZ].
  - replace (umat (q_Rx x)) with (mkM 1 0 0 0 (cos x) (- sin x) 0 (sin x) (cos x)); [constructor|]. unfold umat, q_Rx. cbn. f_equal; nra.
  - replace (umat (q_Ry x)) with (mkM (cos x) 0 (sin x) 0 1 0 (- sin x) 0 (cos x)); [constructor|]. unfold umat, q_Ry. cbn. f_equal; nra.
  - replace (umat (q_Rz x)) with (mkM (cos x) (- sin x) 0 (sin x) (cos x) 0 0 0 1); [constructor|]. unfold umat, q_Rz. cbn. f_equal; nra.
Qed.
Lemma umat_prod a b : is_unit a -> is_unit b -> umat (q_prod a b) = mmul (umat a) (umat b).
Proof.
  intros Ha Hb. assert (HV : forall v, mvec (umat (q_prod a b)) v = mvec (mmul (umat a) (umat b)) v).
  { intros v. rewrite umat_rotate by (apply is_unit_prod; auto). rewrite q_rotate_prod, <- (umat_rotate b) by auto. rewrite <- (umat_rotate a) by auto.
    generalize (umat a) (umat b). intros A B. unfold mvec, mmul. cbn. f_equal; ring. }
  pose proof (HV (mkV 1 0 0)) as X. pose proof (HV (mkV 0 1 0)) as Y. pose proof (HV (mkV 0 0 1)) as Z. revert X Y Z.
  generalize (umat (q_prod a b)) (mmul (umat a) (umat b)). intros A B. destruct A, B. unfold mvec; cbn. intros X Y Z. injection X; injection Y; injection Z; intros. f_equal; lra.
Qed.
Lemma joint_turn_jrot b : is_valid_euler_code (bn_code b) = true -> joint_turn b (umat (jrot b)).
Proof.
  intros V. destruct (valid_letters _ V) as (x & y & z & E & L1 & L2 & L3). unfold jrot, rotA, rotB, rotC, code_at. rewrite E. cbn [nth].
  exists x, y, z, (umat (letter_rot x (bn_alpha b))), (umat (letter_rot y (bn_beta b))), (umat (letter_rot z (bn_gamma b))).
  repeat (split; [auto using turn_umat|]). rewrite !umat_prod by auto using letter_rot_unit, is_unit_prod. auto.
Qed.
Lemma wpose_frame s k T Q : codes_ok s -> wpose s k T Q -> world_frame s k T (umat Q).
Proof.
  intros HC. induction 1.
  - apply frame_root; auto. apply joint_turn_jrot. eauto.
  - rewrite umat_prod by eauto using wpose_unit, jrot_unit. rewrite <- umat_rotate by eauto using wpose_unit.
    eapply frame_bone; eauto. apply joint_turn_jrot. eauto.
Qed.
Lemma turn_unique x c A B : turn x c A -> turn x c B -> A = B.
Proof. intros H1 H2. inversion H1; subst; inversion H2; auto. Qed.
Lemma joint_turn_unique b M N : joint_turn b M -> joint_turn b N -> M = N.
Proof.
  intros (c1 & c2 & c3 & A & B & C & E & HA & HB & HC & ->) (c1' & c2' & c3' & A' & B' & C' & E' & HA' & HB' & HC' & ->).
  rewrite E in E'. injection E' as <- <- <-. rewrite (turn_unique _ _ _ _ HA HA'), (turn_unique _ _ _ _ HB HB'), (turn_unique _ _ _ _ HC HC'). auto.
Qed.
Lemma world_frame_unique s k T M : world_frame s k T M -> forall T' M', world_frame s k T' M' -> T' = T /\ M' = M.
Proof.
  induction 1; intros T' M' H'; inversion H'; subst.
  - assert (b0 = b) by congruence. subst. split; auto. eapply joint_turn_unique; eauto.
  - assert (b0 = b) by congruence. subst. lia.
  - assert (b0 = b) by congruence. subst. lia.
  - assert (b0 = b) by congruence. subst. assert (p0 = p) by lia. subst. destruct (IHworld_frame _ _ H5). subst. split; auto. f_equal. eapply joint_turn_unique; eauto.
Qed.

(** ** paths *)
Lemma path_exists s k : bone_tree s -> (k < length s)%nat -> exists l, path s k l.
Proof.
  intros HT. induction k as [k IH] using lt_wf_ind. intros Hk.
  destruct (nth_error s k) as [b|] eqn:E; [|apply nth_error_None in E; lia].
  destruct k as [|k]; [exists [0%nat]; eapply path_root; eauto; eapply bt_root; eauto|].
  destruct (bt_parent s HT (S k) b ltac:(lia) E) as (p & Ep & Lp). destruct (IH p Lp ltac:(lia)) as (l & H). eexists. eapply path_bone; eauto.
Qed.
Lemma path_unique s k l : path s k l -> forall l', path s k l' -> l' = l.
Proof.
  induction 1; intros l' H'; inversion H'; subst; auto.
  - assert (b0 = b) by congruence. subst. lia.
  - assert (b0 = b) by congruence. subst. lia.
  - assert (b0 = b) by congruence. subst. assert (p0 = p) by lia. subst. f_equal. auto.
Qed.
Lemma path_last s k l : path s k l -> exists l', l = l' ++ [k].
Proof. destruct 1; [exists []|eexists]; reflexivity. Qed.
Lemma path_lt s k l : path s k l -> (k < length s)%nat.
Proof. destruct 1; eapply nth_lt; eauto. Qed.
Lemma path_desc s k l j : path s k l -> In j l <-> desc s j k.
Proof.
  intros H. revert j. induction H; intros j.
  - cbn. split; [intros [<-|[]]; constructor|]. intros D. inversion D; subst; auto. destruct H2 as (b' & X & Y). assert (b' = b) by congruence. subst. lia.
  - rewrite in_app_iff, IHpath. cbn. split.
    + intros [D|[<-|[]]]; [|constructor]. eapply desc_child; eauto. exists b; auto.
    + intros D. inversion D; subst; [auto|]. left. assert (p0 = p); [|subst; auto]. eapply parent_uniq; eauto. exists b; auto.
Qed.
Lemma path_nodup s k l : bone_tree s -> path s k l -> NoDup l.
Proof.
  intros HT. induction 1; [repeat constructor; auto|].
  assert (N : ~ In k l). { rewrite (path_desc _ _ _ k H1). intros D. apply desc_ge in D; auto. assert (parent_is s p k) by (exists b; auto). apply parent_lt in H2; auto. lia. }
  clear -IHpath N. induction l as [|c l IH]; cbn; [repeat constructor; auto|].
  inversion IHpath; subst. constructor; [rewrite in_app_iff; cbn in *; intuition|]. apply IH; auto. cbn in N. intuition.
Qed.
Lemma path_bound s k l j : bone_tree s -> path s k l -> In j l -> (j < length s)%nat.
Proof. intros HT H Hj. pose proof (path_lt _ _ _ H). apply (path_desc _ _ _ _ H) in Hj. apply desc_ge in Hj; auto. lia. Qed.
Lemma path_shape s s' k l : map shape_of s = map shape_of s' -> path s k l -> path s' k l.
Proof.
  intros E. induction 1.
  - destruct (shape_nth _ _ _ _ E H) as (b' & A & B). eapply path_root; eauto. unfold shape_of in B. congruence.
  - destruct (shape_nth _ _ _ _ E H) as (b' & A & B). eapply path_bone; eauto. unfold shape_of in B. congruence.
Qed.

Lemma climb_ok s : bone_tree s -> forall f k b acc, nth_error s k = Some b -> (k < f)%nat -> exists l, path s k l /\ climb f s b acc = Some (acc ++ rev l).
Proof.
  intros HT. induction f as [|f IH]; intros k b acc Hb Hk; [lia|]. cbn. unfold is_root.
  destruct k as [|k].
  - rewrite (bt_root s HT b Hb). cbn. exists [0%nat]. split; [eapply path_root; eauto; eapply bt_root; eauto|]. rewrite (bt_idx s HT _ _ Hb). auto.
  - destruct (bt_parent s HT (S k) b ltac:(lia) Hb) as (p & Ep & Lp). rewrite Ep.
    replace (Z.of_nat p =? -1)%Z with false by (symmetry; apply Z.eqb_neq; lia). rewrite py_get_nat.
    destruct (nth_error s p) as [pb|] eqn:E; [|apply nth_error_None in E; apply nth_lt in Hb; lia].
    destruct (IH p pb (acc ++ [bn_idx b]) E ltac:(lia)) as (l & Hl & El). exists (l ++ [S k]). split; [eapply path_bone; eauto|].
    rewrite El, (bt_idx s HT _ _ Hb), rev_app_distr. cbn. rewrite <- app_assoc. auto.
Qed.
Lemma make_chain_ok s k b : bone_tree s -> nth_error s k = Some b -> exists l, path s k l /\ make_chain s b = Some (mkChain l (mkV 10 0 0) vzero).
Proof.
  intros HT Hb. destruct (climb_ok s HT (length s) k b [] Hb (nth_lt _ _ _ Hb)) as (l & Hl & El). exists l. split; auto.
  unfold make_chain. rewrite El. cbn. rewrite rev_involutive. auto.
Qed.
