(** compute_jacobian is the derivative of the end-effector positions. *)
From Coq Require Import Arith.Wf_nat.
From Verif Require Import Base VecModel QuatModel QuatProofs BvhModel BvhProofs IkModel IkSpec IkProofs IkPose IkDeriv.
Open Scope R_scope.

Definition posed (s : skeleton) : Prop := forall j, (j < length s)%nat -> right_pose s j.
Lemma update_posed s s' : bone_tree s -> codes_ok s -> update_skeleton s = Some s' -> posed s' /\ same_joints s s'.
Proof.
  intros HT HC U. assert (s <> []) by (intros ->; discriminate). destruct (update_skeleton_ok s HT HC H) as (s2 & U2 & SJ & R). rewrite U in U2. injection U2 as <-.
  split; [|auto]. intros j Hj. apply R. rewrite (same_joints_length _ _ SJ). auto.
Qed.

Definition apick (o : nat) (t : vec3 * vec3 * vec3) : vec3 := let '(u, v, w) := t in match o with O => u | S O => v | _ => w end.
(** world axis of angle [o] of bone [m], and the column of the Jacobian it gives for a point [e] *)
Definition waxis (s : skeleton) (m o : nat) : vec3 :=
  match nth_error s m with Some b => match joint_axes s b with Some t => apick o t | None => vzero end | None => vzero end.
Definition wpos (s : skeleton) (m : nat) : vec3 := match nth_error s m with Some b => bn_tw b | None => vzero end.
Definition jcol (s : skeleton) (e : vec3) (m o : nat) : vec3 := vcross (waxis s m o) (vsub e (wpos s m)).

Lemma parent_q_eq s m b Tm Qp : bone_tree s -> posed s -> nth_error s m = Some b -> base_pose s m Tm Qp -> parent_q s b = Some Qp /\ bn_tw b = Tm.
Proof.
  intros HT HP Hb HB. pose proof (nth_lt _ _ _ Hb) as L. split.
  - destruct HB as (b' & Hb' & H). assert (b' = b) by congruence. subst b'. unfold parent_q, has_parent, is_root.
    destruct H as [(_ & -> & _ & ->)|(p & Tp & E & W & _)]; [reflexivity|]. rewrite E.
    replace (Z.of_nat p =? -1)%Z with false by (symmetry; apply Z.eqb_neq; lia). cbn [negb]. rewrite py_get_nat.
    assert (PI : parent_is s p m) by (exists b; auto). apply parent_lt in PI; auto. destruct (HP p ltac:(lia)) as (pb & Hpb & Wp). rewrite Hpb.
    destruct (wpose_unique _ _ _ _ W _ _ Wp) as [_ ->]. auto.
  - destruct (HP m L) as (b' & Hb' & W). assert (b' = b) by congruence. subst b'. destruct (wpose_unique _ _ _ _ (base_wpose _ _ _ _ _ Hb HB) _ _ W). auto.
Qed.
Lemma joint_axes_eq s m b Tm Qp : bone_tree s -> codes_ok s -> posed s -> nth_error s m = Some b -> base_pose s m Tm Qp ->
  joint_axes s b = Some (q_rotate Qp (axis_local 0 b), q_rotate Qp (axis_local 1 b), q_rotate Qp (axis_local 2 b)).
Proof.
  intros HT HC HP Hb HB. unfold joint_axes. rewrite (proj1 (parent_q_eq _ _ _ _ _ HT HP Hb HB)).
  pose proof (HC _ _ Hb) as V. unfold get_rotation_alpha, get_rotation_beta, get_axis_alpha, get_axis_beta, get_axis_gamma.
  rewrite (proj2 (proj2 (code_get b V 0%nat ltac:(lia)))), (proj2 (proj2 (code_get b V 1%nat ltac:(lia)))).
  rewrite (proj1 (proj2 (code_get b V 0%nat ltac:(lia)))), (proj1 (proj2 (code_get b V 1%nat ltac:(lia)))), (proj1 (proj2 (code_get b V 2%nat ltac:(lia)))). reflexivity.
Qed.
Lemma axes_exist s m : bone_tree s -> codes_ok s -> posed s -> (m < length s)%nat -> exists b t, nth_error s m = Some b /\ joint_axes s b = Some t.
Proof.
  intros HT HC HP Hm. destruct (nth_error s m) as [b|] eqn:E; [|apply nth_error_None in E; lia]. destruct (base_exists s m HT Hm) as (T & Q & HB).
  exists b. eexists. split; [auto|eapply joint_axes_eq; eauto].
Qed.
Lemma waxis_eq s m o b Tm Qp : bone_tree s -> codes_ok s -> posed s -> nth_error s m = Some b -> base_pose s m Tm Qp -> (o < 3)%nat ->
  waxis s m o = q_rotate Qp (axis_local o b) /\ wpos s m = Tm.
Proof.
  intros HT HC HP Hb HB Ho. unfold waxis, wpos. rewrite Hb, (joint_axes_eq _ _ _ _ _ HT HC HP Hb HB). split; [|eapply parent_q_eq; eauto].
  destruct o as [|[|[|o]]]; try lia; reflexivity.
Qed.

(** ** the loops *)
Lemma col_idx m o m' o' : (o < 3)%nat -> (o' < 3)%nat -> Nat.eqb (m * 3 + o) (m' * 3 + o') = (Nat.eqb m m' && Nat.eqb o o')%bool.
Proof.
  intros. destruct (Nat.eqb_spec (m * 3 + o) (m' * 3 + o')); destruct (Nat.eqb_spec m m'); destruct (Nat.eqb_spec o o'); cbn; auto; try lia.
Qed.
Lemma set_get_col3 J row c c' v : get_col3 (set_col3 J row c v) row c' = if Nat.eqb c' c then v else get_col3 J row c'.
Proof.
  unfold get_col3, set_col3; cbn. destruct (Nat.eqb_spec c' c); [|reflexivity].
  rewrite Nat.eqb_refl. replace (row + 1 =? row)%nat with false by (symmetry; apply Nat.eqb_neq; lia). replace (row + 2 =? row)%nat with false by (symmetry; apply Nat.eqb_neq; lia).
  rewrite Nat.eqb_refl. replace (row + 2 =? row + 1)%nat with false by (symmetry; apply Nat.eqb_neq; lia). rewrite Nat.eqb_refl. destruct v; auto.
Qed.
Lemma set_col3_other J row c v i j : (i < row \/ row + 3 <= i)%nat -> m_at (set_col3 J row c v) i j = m_at J i j.
Proof.
  intros H. unfold set_col3; cbn. destruct (Nat.eqb j c); auto. repeat match goal with |- context [Nat.eqb ?a ?b] => destruct (Nat.eqb_spec a b); [lia|] end. auto.
Qed.
Lemma jacobian_bone_ok s e row J k : bone_tree s -> codes_ok s -> posed s -> (k < length s)%nat ->
  exists J', jacobian_bone s e row J k = Some J' /\ m_rows J' = m_rows J /\ m_cols J' = m_cols J /\
  (forall i j, (i < row \/ row + 3 <= i)%nat -> m_at J' i j = m_at J i j) /\
  (forall m o, (o < 3)%nat -> get_col3 J' row (m * 3 + o) = if Nat.eqb m k then jcol s e m o else get_col3 J row (m * 3 + o)).
Proof.
  intros HT HC HP Hk. destruct (axes_exist s k HT HC HP Hk) as (b & [[u v] w] & Hb & Ht). unfold jacobian_bone. rewrite Hb, Ht. eexists. split; [reflexivity|].
  split; [auto|split; [auto|split]].
  - intros i j H. rewrite !set_col3_other by auto. auto.
  - intros m o Ho. rewrite !set_get_col3, !col_idx by lia. unfold jcol, waxis, wpos. destruct (Nat.eqb_spec m k) as [->|]; [|reflexivity]. rewrite Hb, Ht.
    destruct o as [|[|[|o]]]; try lia; reflexivity.
Qed.
Lemma jacobian_loop_ok s e row : bone_tree s -> codes_ok s -> posed s -> forall l J, (forall k, In k l -> (k < length s)%nat) ->
  exists J', loop (jacobian_bone s e row) l J = Some J' /\ m_rows J' = m_rows J /\ m_cols J' = m_cols J /\
  (forall i j, (i < row \/ row + 3 <= i)%nat -> m_at J' i j = m_at J i j) /\
  (forall m o, (o < 3)%nat -> get_col3 J' row (m * 3 + o) = if in_dec Nat.eq_dec m l then jcol s e m o else get_col3 J row (m * 3 + o)).
Proof.
  intros HT HC HP. induction l as [|k l IH]; intros J Hl.
  - exists J. cbn. repeat split; auto.
  - destruct (jacobian_bone_ok s e row J k HT HC HP (Hl k (or_introl eq_refl))) as (J1 & E1 & R1 & C1 & O1 & V1).
    destruct (IH J1 (fun k H => Hl k (or_intror H))) as (J2 & E2 & R2 & C2 & O2 & V2). exists J2. cbn [loop]. rewrite E1.
    split; [auto|]. split; [congruence|]. split; [congruence|]. split.
    + intros i j H. rewrite O2, O1; auto.
    + intros m o Ho. rewrite V2, V1 by auto. destruct (in_dec Nat.eq_dec m l) as [I|N]; destruct (in_dec Nat.eq_dec m (k :: l)) as [I'|N'].
      * auto.
      * destruct N'; right; auto.
      * destruct I' as [->|]; [|contradiction]. rewrite Nat.eqb_refl. auto.
      * destruct (Nat.eqb_spec m k); auto. subst. destruct N'; left; auto.
Qed.
Lemma get_col3_ext J J' row c : (forall i, (row <= i < row + 3)%nat -> m_at J' i c = m_at J i c) -> get_col3 J' row c = get_col3 J row c.
Proof. intros H. unfold get_col3. rewrite !H by lia. auto. Qed.

Definition chain_fits (s : skeleton) (c : chain) : Prop := ch_bones c <> [] /\ forall k, In k (ch_bones c) -> (k < length s)%nat.
Lemma end_effector_exists s c : chain_fits s c -> exists e, get_end_effector c s = Some e.
Proof.
  intros (N & H). unfold get_end_effector. destruct (rev (ch_bones c)) as [|k r] eqn:E.
  - destruct N. rewrite <- (rev_involutive (ch_bones c)), E. auto.
  - destruct (nth_error s k) as [b|] eqn:Eb; [eauto|]. apply nth_error_None in Eb. specialize (H k). rewrite in_rev, E in H. specialize (H (or_introl eq_refl)). lia.
Qed.
Lemma jacobian_chains_ok s : bone_tree s -> codes_ok s -> posed s -> forall cs J c0, (forall c, In c cs -> chain_fits s c) ->
  exists J', loop (jacobian_chain s) cs (J, (c0 * 3)%nat) = Some (J', ((c0 + length cs) * 3)%nat) /\ m_rows J' = m_rows J /\ m_cols J' = m_cols J /\
  (forall i j, (i < c0 * 3 \/ (c0 + length cs) * 3 <= i)%nat -> m_at J' i j = m_at J i j) /\
  (forall n c e m o, nth_error cs n = Some c -> get_end_effector c s = Some e -> (o < 3)%nat ->
     get_col3 J' ((c0 + n) * 3) (m * 3 + o) = if in_dec Nat.eq_dec m (ch_bones c) then jcol s e m o else get_col3 J ((c0 + n) * 3) (m * 3 + o)).
Proof.
  intros HT HC HP. induction cs as [|c cs IH]; intros J c0 Hc.
  - exists J. cbn. rewrite Nat.add_0_r. repeat split; auto. intros n c e m o H. destruct n; discriminate.
  - cbn [loop]. destruct (end_effector_exists s c (Hc c (or_introl eq_refl))) as (e & Ee).
    destruct (jacobian_loop_ok s e (c0 * 3) HT HC HP (ch_bones c) J) as (J1 & E1 & R1 & C1 & O1 & V1); [apply (Hc c (or_introl eq_refl))|].
    destruct (IH J1 (c0 + 1)%nat (fun c H => Hc c (or_intror H))) as (J2 & E2 & R2 & C2 & O2 & V2). exists J2.
    unfold jacobian_chain at 1. rewrite Ee. cbn [fst snd]. rewrite E1. replace (c0 * 3 + 3)%nat with ((c0 + 1) * 3)%nat by lia. rewrite E2.
    split; [f_equal; f_equal; cbn [length]; lia|]. split; [congruence|]. split; [congruence|]. cbn [length]. split.
    + intros i j H. rewrite O2 by lia. rewrite O1 by lia. auto.
    + intros n c' e' m o Hn Ee' Ho. destruct n as [|n].
      * cbn in Hn. injection Hn as <-. rewrite Ee in Ee'. injection Ee' as <-. rewrite Nat.add_0_r. rewrite <- V1 by auto. apply get_col3_ext. intros i Hi. apply O2. lia.
      * cbn in Hn. replace (c0 + S n)%nat with (c0 + 1 + n)%nat by lia. rewrite (V2 n c' e' m o Hn Ee' Ho).
        destruct (in_dec Nat.eq_dec m (ch_bones c')); auto. apply get_col3_ext. intros i Hi. apply O1. lia.
Qed.
Lemma jacobian_ok s cs : bone_tree s -> codes_ok s -> posed s -> (forall c, In c cs -> chain_fits s c) ->
  exists J, compute_jacobian cs s = Some J /\ m_rows J = (length cs * 3)%nat /\ m_cols J = (length s * 3)%nat /\
  (forall n c e m o, nth_error cs n = Some c -> get_end_effector c s = Some e -> (o < 3)%nat ->
     get_col3 J (n * 3) (m * 3 + o) = if in_dec Nat.eq_dec m (ch_bones c) then jcol s e m o else vzero).
Proof.
  intros HT HC HP Hc. destruct (jacobian_chains_ok s HT HC HP cs (mat_zeros (length cs * 3) (length s * 3)) 0 Hc) as (J & E & R & C & O & V).
  exists J. unfold compute_jacobian. cbn [Nat.mul] in E. rewrite E. split; [auto|]. split; [auto|]. split; [auto|].
  intros n c e m o Hn He Ho. pose proof (V n c e m o Hn He Ho) as X. cbn [Nat.add] in X. rewrite X. destruct (in_dec _ _ _); auto.
Qed.

Lemma serial_fits s c : bone_tree s -> serial s c -> chain_fits s c.
Proof.
  intros HT (k & H). split; [destruct (path_last _ _ _ H) as (l & ->); destruct l; discriminate|]. intros j Hj. eapply path_bound; eauto.
Qed.
Lemma end_effector_path s c k : path s k (ch_bones c) -> get_end_effector c s = match nth_error s k with Some b => Some (vadd (bn_tw b) (q_rotate (bn_q b) (ch_tool c))) | None => None end.
Proof. intros H. destruct (path_last _ _ _ H) as (l & E). unfold get_end_effector. rewrite E, rev_app_distr. reflexivity. Qed.

Lemma axis_local_strip o b b' : strip b = strip b' -> axis_local o b = axis_local o b'.
Proof. unfold strip. intros E. assert (bn_code b = bn_code b' /\ bn_alpha b = bn_alpha b' /\ bn_beta b = bn_beta b') as (A & B & C) by (repeat split; congruence).
  unfold axis_local, rotA, rotB, code_at. rewrite A, B, C. auto. Qed.
(** ** the end effector as a function of one angle *)
Lemma ee_pose s c k T Q s2 : bone_tree s -> codes_ok s -> path s k (ch_bones c) -> wpose s k T Q -> update_skeleton s = Some s2 ->
  get_end_effector c s2 = Some (vadd T (q_rotate Q (ch_tool c))).
Proof.
  intros HT HC HPa HW U. destruct (update_posed _ _ HT HC U) as [HP SJ]. assert (HPa2 : path s2 k (ch_bones c)) by (eapply path_shape; [apply strip_shape; exact SJ|auto]).
  rewrite (end_effector_path _ _ _ HPa2). destruct (HP k (path_lt _ _ _ HPa2)) as (b & Hb & W). rewrite Hb.
  destruct (wpose_unique _ _ _ _ (wpose_strip _ _ _ _ _ SJ HW) _ _ W) as [-> ->]. auto.
Qed.
Lemma vary_update s m o x : bone_tree s -> codes_ok s -> (m < length s)%nat -> exists s2, update_skeleton (vary s m o x) = Some s2.
Proof.
  intros HT HC Hm. destruct (update_skeleton_ok (vary s m o x)) as (s2 & U & _); [apply vary_tree; auto|apply vary_codes; auto| |eauto].
  intros E. apply (f_equal (@length _)) in E. rewrite vary_length in E. cbn in E. lia.
Qed.
Lemma vary_path s m o x k l : path s k l -> path (vary s m o x) k l.
Proof. apply path_shape. symmetry. apply vary_shape. Qed.

Lemma ee_moved s c k m bm Tm Qp : bone_tree s -> codes_ok s -> path s k (ch_bones c) -> nth_error s m = Some bm -> base_pose s m Tm Qp -> desc s m k ->
  exists P, forall o x s2, update_skeleton (vary s m o x) = Some s2 -> get_end_effector c s2 = Some (vadd Tm (q_rotate Qp (q_rotate (jrot (set_ang o bm x)) P))).
Proof.
  intros HT HC HPa Hm HB HD. destruct (wpose_moved s m k bm Tm Qp HT Hm HB HD) as (p & r & _ & W). exists (vadd p (q_rotate r (ch_tool c))).
  intros o x s2 U. rewrite (ee_pose _ c k _ _ s2 (vary_tree _ _ _ _ HT) (vary_codes _ _ _ _ HC) (vary_path _ _ _ _ _ _ HPa) (W o x) U). f_equal.
  rewrite !q_rotate_prod, !q_rotate_add.
  generalize (q_rotate Qp (q_rotate (jrot (set_ang o bm x)) p)) (q_rotate Qp (q_rotate (jrot (set_ang o bm x)) (q_rotate r (ch_tool c)))).
  intros [] []. destruct Tm. unfold vadd; cbn; f_equal; ring.
Qed.
Lemma ee_still s c k m : bone_tree s -> codes_ok s -> path s k (ch_bones c) -> ~ desc s m k ->
  exists E, forall o x s2, update_skeleton (vary s m o x) = Some s2 -> get_end_effector c s2 = Some E.
Proof.
  intros HT HC HPa HD. destruct (wpose_exists s k HT (path_lt _ _ _ HPa)) as (T & Q & W). exists (vadd T (q_rotate Q (ch_tool c))). intros o x s2 U.
  apply (ee_pose (vary s m o x) c k T Q); auto using vary_tree, vary_codes, vary_path, wpose_still.
Qed.
(** [E x] is the end effector after setting angle (m, o) to x *)
Definition ee_fun (s : skeleton) (c : chain) (m o : nat) (E : R -> vec3) : Prop :=
  forall x s2, update_skeleton (vary s m o x) = Some s2 -> get_end_effector c s2 = Some (E x).
Lemma ee_deriv s c m o x : bone_tree s -> codes_ok s -> serial s c -> (m < length s)%nat -> (o < 3)%nat ->
  exists E, ee_fun s c m o E /\ forall s2, update_skeleton (vary s m o x) = Some s2 ->
     vderiv E x (if in_dec Nat.eq_dec m (ch_bones c) then jcol s2 (E x) m o else vzero).
Proof.
  intros HT HC (k & HPa) Hm Ho. destruct (nth_error s m) as [bm|] eqn:Eb; [|apply nth_error_None in Eb; lia].
  destruct (base_exists s m HT Hm) as (Tm & Qp & HB). destruct (in_dec Nat.eq_dec m (ch_bones c)) as [I|N].
  - apply (path_desc _ _ _ _ HPa) in I. destruct (ee_moved s c k m bm Tm Qp HT HC HPa Eb HB I) as (P & HE).
    exists (fun x => vadd Tm (q_rotate Qp (q_rotate (jrot (set_ang o bm x)) P))). split; [intros x' s2 U; eauto|]. intros s2 U.
    assert (HT1 := vary_tree s m o x HT). assert (HC1 := vary_codes s m o x HC). destruct (update_posed _ _ HT1 HC1 U) as [HP SJ].
    assert (B1 : base_pose (vary s m o x) m Tm Qp) by (apply base_still; auto).
    assert (Hv : nth_error (vary s m o x) m = Some (set_ang o bm x)) by (apply vary_at; auto).
    destruct (strip_nth _ _ _ _ SJ Hv) as (b2 & Hb2 & S2).
    assert (B2 : base_pose s2 m Tm Qp).
    { destruct B1 as (b' & Hb' & B1). assert (b' = set_ang o bm x) by congruence. subst b'. exists b2. split; auto.
      assert (X : bn_parent b2 = bn_parent (set_ang o bm x) /\ bn_t b2 = bn_t (set_ang o bm x)) by (unfold strip in S2; split; congruence).
      destruct X as [-> ->]. destruct B1 as [B1|(p & Tp & E1 & E2 & E3)]; [left; auto|right]. exists p, Tp. repeat split; auto. eapply wpose_strip; eauto. }
    destruct (waxis_eq s2 m o b2 Tm Qp (same_joints_tree _ _ SJ HT1) (same_joints_codes _ _ SJ HC1) HP Hb2 B2 Ho) as [EA EP].
    unfold jcol. rewrite EA, EP.
    replace (axis_local o b2) with (axis_local o bm).
    2:{ rewrite <- (axis_local_own o bm x). symmetry. apply axis_local_strip; auto. }
    replace (vsub (vadd Tm (q_rotate Qp (q_rotate (jrot (set_ang o bm x)) P))) Tm) with (q_rotate Qp (q_rotate (jrot (set_ang o bm x)) P)).
    2:{ generalize (q_rotate Qp (q_rotate (jrot (set_ang o bm x)) P)). intros []. destruct Tm. unfold vadd, vsub; cbn; f_equal; ring. }
    assert (U1 : is_unit Qp) by (eapply base_unit; eauto). rewrite <- rot_cross by auto.
    eapply vderiv_eq; [apply (vderiv_add (fun _ => Tm) (fun t => q_rotate Qp (q_rotate (jrot (set_ang o bm t)) P))); [apply vderiv_const|]|apply vadd_zero_l].
    apply (vderiv_rotate Qp (fun t => q_rotate (jrot (set_ang o bm t)) P)); auto. apply jrot_deriv; auto. eauto.
  - rewrite (path_desc _ _ _ _ HPa) in N. destruct (ee_still s c k m HT HC HPa N) as (E & HE). exists (fun _ => E). split; [intros x' s2 U; eauto|]. intros s2 U. apply vderiv_const.
Qed.
