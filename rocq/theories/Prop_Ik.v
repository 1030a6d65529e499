(** Inverse kinematics: C87 - C95. *)
From Verif Require Import Base VecModel QuatModel QuatProofs BvhModel BvhProofs IkModel IkSpec IkProofs IkPose IkDeriv IkJac IkGrad IkHess IkHess2 IkFd FdLimits IkCont IkFd2.
Open Scope R_scope.

(** ** C87: building a skeleton *)
Lemma code_valid code : is_valid_euler_code code = true <-> euler_sequence code.
Proof.
  split.
  - unfold is_valid_euler_code. rewrite orb_true_iff, !existsb_exists.
    assert (X : forall l, code_eqb code l = true -> code = l) by (intros l; unfold code_eqb; destruct list_eq_dec; auto; discriminate).
    intros [(l & Hl & El)|(l & Hl & El)]; apply X in El; subst l; cbn in Hl;
    repeat (destruct Hl as [<-|Hl]; [eexists _, _, _; split; [reflexivity|split; [discriminate|split; [discriminate|cbn; intros l [<-|[<-|[<-|[]]]]; auto]]]|]); destruct Hl.
  - intros (a & b & c & -> & N1 & N2 & L).
    assert (LA : forall l, In l [a; b; c] -> l = 88%nat \/ l = 89%nat \/ l = 90%nat) by (intros l Hl; destruct (L l Hl) as [<-|[<-|[<-|[]]]]; auto).
    destruct (LA a ltac:(cbn; auto)) as [->|[->| ->]], (LA b ltac:(cbn; auto)) as [->|[->| ->]], (LA c ltac:(cbn; auto)) as [->|[->| ->]]; try congruence; reflexivity.
Qed.

(** every history leaves a tree *)
Theorem C87_tree s : built s -> bone_tree s /\ forall k b, nth_error s k = Some b -> euler_sequence (bn_code b).
Proof. intros H. split; [apply built_tree; auto|]. intros k b Hb. apply code_valid. eapply built_codes; eauto. Qed.

Theorem C87_create_root s a b g x y z code :
  (create_root s a b g x y z code = None <-> s <> [] \/ ~ euler_sequence code) /\
  (forall s', create_root s a b g x y z code = Some s' -> exists r, s' = [r] /\ strip r = (0%nat, code, a, b, g, mkV x y z, (-1)%Z, [])).
Proof.
  unfold create_root, has_root. destruct s as [|b0 s0].
  - change (Nat.ltb 0 (length (@nil bone))) with false. cbn iota. destruct (is_valid_euler_code code) eqn:E; cbn [negb].
    + split.
      * split; [discriminate|]. intros [H|H]; [congruence|]. apply code_valid in E. contradiction.
      * intros s' H. injection H as <-. eexists. split; [reflexivity|reflexivity].
    + split; [|discriminate]. split; auto. intros _. right. rewrite <- code_valid. congruence.
  - change (Nat.ltb 0 (length (b0 :: s0))) with true. cbn iota. split; [|discriminate]. split; auto. intros _. left. discriminate.
Qed.

Theorem C87_add_bone s p a b g x y z code : built s ->
  (add_bone s p a b g x y z code = None <-> ~ (0 <= p < Z.of_nat (length s))%Z \/ ~ euler_sequence code) /\
  (forall s', add_bone s p a b g x y z code = Some s' ->
     length s' = S (length s) /\
     (exists e, nth_error s' (length s) = Some e /\ strip e = (length s, code, a, b, g, mkV x y z, p, [])) /\
     (forall k bk, nth_error s k = Some bk -> exists bk', nth_error s' k = Some bk' /\
        if Z.eqb (Z.of_nat k) p then bk' = add_child bk (length s) /\ bn_children bk' = bn_children bk ++ [length s] else bk' = bk)).
Proof.
  intros HB. split.
  - split.
    + intros H. destruct (is_valid_euler_code code) eqn:E; [left|right; rewrite <- code_valid; congruence]. intros R0.
      unfold add_bone in H. unfold has_bone in H. rewrite (proj2 (Z.ltb_lt _ _) (proj2 R0)), (proj2 (Z.leb_le _ _) (proj1 R0)), E in H. cbn [andb negb] in H.
      unfold py_get, py_set in H. rewrite py_idx_in in H by auto. destruct (nth_error s (Z.to_nat p)) eqn:E2; [discriminate|]. apply nth_error_None in E2. lia.
    + intros H. destruct (add_bone s p a b g x y z code) eqn:E; auto. destruct (add_bone_inv _ _ _ _ _ _ _ _ _ _ E) as (k & pb & -> & _ & Lk & V & _).
      apply code_valid in V. destruct H; [lia|contradiction].
  - intros s' E. destruct (add_bone_inv _ _ _ _ _ _ _ _ _ _ E) as (k & pb & -> & Hk & Lk & V & ->). split; [rewrite app_length, list_upd_length; cbn; lia|]. split.
    + eexists. split; [rewrite nth_error_app2, list_upd_length, Nat.sub_diag by (rewrite list_upd_length; lia); reflexivity|reflexivity].
    + intros j bj Hj. pose proof (nth_lt _ _ _ Hj). rewrite nth_error_app1 by (rewrite list_upd_length; lia). destruct (Z.eqb_spec (Z.of_nat j) (Z.of_nat k)) as [Ej|Nj].
      * assert (j = k) by lia. subst j. rewrite list_upd_same by auto. eexists; split; [reflexivity|]. split; [congruence|]. replace pb with bj by congruence. reflexivity.
      * rewrite list_upd_other by (intros ->; apply Nj; auto). eauto.
Qed.
(** two bones below the root, then one below the first of them *)
Definition ex_skeleton : skeleton :=
  [mkBone 0 [90; 89; 90]%nat 0 0 0 q_identity vzero vzero (-1) [1; 2]%nat; mkBone 1 [88; 89; 90]%nat 1 2 3 q_identity vzero (mkV 0 0 1) 0 [3]%nat;
   mkBone 2 [90; 88; 90]%nat 0 1 0 q_identity vzero (mkV 1 0 0) 0 []; mkBone 3 [89; 88; 90]%nat 0 0 1 q_identity vzero (mkV 0 2 0) 1 []].
Lemma ex_built : built ex_skeleton.
Proof.
  pose proof (built_root _ 0 0 0 0 0 0 [90; 89; 90]%nat _ built_new eq_refl) as B1. pose proof (built_bone _ 0 1 2 3 0 0 1 [88; 89; 90]%nat _ B1 eq_refl) as B2.
  pose proof (built_bone _ 0 0 1 0 1 0 0 [90; 88; 90]%nat _ B2 eq_refl) as B3. exact (built_bone _ 1 0 0 1 0 2 0 [89; 88; 90]%nat _ B3 eq_refl).
Qed.
Lemma C87_nonvacuous : built ex_skeleton /\ length ex_skeleton = 4%nat /\ parent_is ex_skeleton 1 3 /\ ~ parent_is ex_skeleton 0 3 /\ add_bone ex_skeleton 4 0 0 0 0 0 0 [90; 89; 90]%nat = None /\ add_bone ex_skeleton 3 0 0 0 0 0 0 [90; 90; 89]%nat = None.
Proof.
  split; [apply ex_built|]. split; [reflexivity|]. split; [exists (mkBone 3 [89; 88; 90]%nat 0 0 1 q_identity vzero (mkV 0 2 0) 1 []); split; reflexivity|].
  split; [|split; reflexivity]. intros (b & Hb & P). injection Hb as <-. cbn in P. lia.
Qed.

(** ** C88: forward kinematics *)
Theorem C88_poses s : built s -> s <> [] -> exists s', update_skeleton s = Some s' /\ same_joints s s' /\
  forall k b, nth_error s' k = Some b -> is_unit (bn_q b) /\ world_frame s k (bn_tw b) (q_to_matrix (bn_q b)).
Proof.
  intros HB N. pose proof (built_tree s HB) as HT. pose proof (built_codes s HB) as HC. destruct (update_skeleton_ok s HT HC N) as (s' & U & SJ & RP).
  exists s'. split; [auto|]. split; [auto|]. intros k b Hb. pose proof (nth_lt _ _ _ Hb) as L. rewrite <- (same_joints_length _ _ SJ) in L.
  destruct (RP k L) as (b' & Hb' & W). assert (b' = b) by congruence. subst b'. pose proof (wpose_unit _ _ _ _ W) as Un. split; auto.
  rewrite to_matrix_unit by auto. apply wpose_frame; auto. eapply wpose_strip; [apply same_joints_sym; exact SJ|exact W].
Qed.
(** the specification determines the frames *)
Theorem C88_frame_unique s k T M T' M' : world_frame s k T M -> world_frame s k T' M' -> T' = T /\ M' = M.
Proof. intros H H'. eapply world_frame_unique; eauto. Qed.
(** old poses do not matter; updating twice changes nothing; the empty skeleton raises *)
Theorem C88_idempotent s : built s -> (forall t, same_joints s t -> update_skeleton t = update_skeleton s) /\ (forall s', update_skeleton s = Some s' -> update_skeleton s' = Some s') /\ update_skeleton [] = None.
Proof.
  intros HB. pose proof (built_tree s HB) as HT. pose proof (built_codes s HB) as HC. split; [intros; apply update_joints; auto|]. split; [|reflexivity].
  intros s' U. destruct (update_posed s s' HT HC U) as [HP SJ]. rewrite (update_joints s s'); auto.
Qed.
(** bones are rigid: the distance from a bone to its parent is the length of its translation *)
Theorem C88_rigid s s' p k b bp : built s -> update_skeleton s = Some s' -> nth_error s' k = Some b -> parent_is s p k -> nth_error s' p = Some bp -> vnorm (vsub (bn_tw b) (bn_tw bp)) = vnorm (bn_t b).
Proof.
  intros HB U Hb PI Hp. pose proof (built_tree s HB) as HT. pose proof (built_codes s HB) as HC. destruct (update_posed s s' HT HC U) as [HP SJ].
  destruct (HP k (nth_lt _ _ _ Hb)) as (b' & Hb' & W). assert (b' = b) by congruence. subst b'.
  destruct (HP p (nth_lt _ _ _ Hp)) as (bp' & Hp' & Wp). assert (bp' = bp) by congruence. subst bp'.
  apply (parent_is_strip _ _ _ _ SJ) in PI. destruct PI as (b2 & Hb2 & P2). assert (b2 = b) by congruence. subst b2.
  destruct (wpose_unique _ _ _ _ (wp_bone s' p k b _ _ Hb P2 Wp) _ _ W) as [-> _].
  replace (vsub (vadd (bn_tw bp) (q_rotate (bn_q bp) (bn_t b))) (bn_tw bp)) with (q_rotate (bn_q bp) (bn_t b)).
  - rewrite q_rotate_norm. pose proof (wpose_unit _ _ _ _ Wp) as UU. unfold is_unit in UU. rewrite UU. ring.
  - generalize (q_rotate (bn_q bp) (bn_t b)) (bn_tw bp). intros [] []. unfold vadd, vsub; cbn; f_equal; ring.
Qed.
Lemma C88_nonvacuous : exists s', update_skeleton ex_skeleton = Some s' /\ exists b, nth_error s' 3 = Some b /\ vnorm (bn_t b) = 2.
Proof.
  destruct (C88_poses ex_skeleton ex_built) as (s' & U & SJ & _); [discriminate|]. exists s'. split; auto.
  destruct (strip_nth ex_skeleton s' 3 (mkBone 3 [89; 88; 90]%nat 0 0 1 q_identity vzero (mkV 0 2 0) 1 []) SJ eq_refl) as (b & Hb & S). exists b. split; auto.
  assert (T : bn_t b = mkV 0 2 0) by (unfold strip in S; cbn in S; congruence). rewrite T. unfold vnorm, vdot. cbn.
  replace (0 * 0 + 2 * 2 + 0 * 0) with (2 * 2) by ring. apply sqrt_square. lra.
Qed.

(** ** C89: make_chains *)
Lemma map_opt_all {A B} (f : A -> option B) l : (forall a, In a l -> exists b, f a = Some b) -> exists r, map_opt f l = Some r /\ Forall2 (fun a b => f a = Some b) l r.
Proof.
  induction l as [|a l IH]; intros H; [exists []; split; [reflexivity|constructor]|]. destruct (H a (or_introl eq_refl)) as (b & Eb). destruct IH as (r & Er & Fr); [intros; apply H; right; auto|].
  exists (b :: r). cbn. rewrite Eb, Er. split; auto.
Qed.
Lemma leaf_below s k : bone_tree s -> (k < length s)%nat -> exists l, leaf s l /\ desc s k l.
Proof.
  intros HT. remember (length s - k)%nat as n eqn:En. revert k En. induction n as [n IH] using lt_wf_ind. intros k En Hk.
  destruct (nth_error s k) as [b|] eqn:E; [|apply nth_error_None in E; lia].
  destruct (bn_children b) as [|c l] eqn:Ec.
  - exists k. split; [|constructor]. split; auto. intros j P. apply (bt_children s HT k b j E) in P. rewrite Ec in P. destruct P.
  - assert (P : parent_is s k c) by (apply (bt_children s HT k b c E); rewrite Ec; left; auto). pose proof (parent_lt s k c HT P) as L.
    destruct P as (bc & Hc & Pc). pose proof (nth_lt _ _ _ Hc). destruct (IH (length s - c)%nat ltac:(lia) c eq_refl ltac:(lia)) as (l' & HL & D). exists l'. split; auto.
    eapply desc_trans; [|exact D]. eapply desc_child; [constructor|exists bc; auto].
Qed.
Theorem C89_chains s : built s -> exists cs, make_chains s = Some cs /\
  (forall c, In c cs -> ch_goal c = mkV 10 0 0 /\ ch_tool c = vzero /\ exists k, leaf s k /\ path s k (ch_bones c)) /\
  (forall k, leaf s k -> exists c, In c cs /\ path s k (ch_bones c)) /\
  NoDup (map ch_bones cs) /\
  (forall k, (k < length s)%nat -> exists c, In c cs /\ In k (ch_bones c)).
Proof.
  intros HB. pose proof (built_tree s HB) as HT. unfold make_chains.
  assert (LF : forall k b, nth_error s k = Some b -> is_end_effector b = true <-> leaf s k).
  { intros k b Hb. unfold is_end_effector. rewrite Nat.eqb_eq. split.
    - intros L. split; [eapply nth_lt; eauto|]. intros j P. apply (bt_children s HT k b j Hb) in P. destruct (bn_children b); [destruct P|discriminate].
    - intros [_ L]. destruct (bn_children b) as [|c l] eqn:E; auto. destruct (L c). apply (bt_children s HT k b c Hb). rewrite E. left; auto. }
  destruct (map_opt_all (make_chain s) (filter is_end_effector s)) as (cs & Ecs & F2).
  { intros b Hb. apply filter_In in Hb. destruct Hb as [Hb _]. apply In_nth_error in Hb. destruct Hb as (k & Hk). destruct (make_chain_ok s k b HT Hk) as (l & _ & E). eauto. }
  exists cs. split; [auto|].
  assert (FW : forall c, In c cs -> exists b k, In b (filter is_end_effector s) /\ nth_error s k = Some b /\ leaf s k /\ path s k (ch_bones c) /\ ch_goal c = mkV 10 0 0 /\ ch_tool c = vzero).
  { intros c Hc. assert (X : exists b, In b (filter is_end_effector s) /\ make_chain s b = Some c).
    { clear Ecs. induction F2 as [|b0 c0 l0 r0 E0 F IH]; [destruct Hc|]. destruct Hc as [<-|Hc]; [exists b0; split; [left; auto|auto]|]. destruct (IH Hc) as (b & I & E). exists b. split; [right; auto|auto]. }
    destruct X as (b & Ib & E). pose proof Ib as Ib'. apply filter_In in Ib. destruct Ib as [Ib EE]. apply In_nth_error in Ib. destruct Ib as (k & Hk). destruct (make_chain_ok s k b HT Hk) as (l & P & E'). rewrite E' in E. injection E as <-.
    exists b, k. split; [auto|]. split; [auto|]. split; [apply (LF k b Hk); auto|]. cbn. auto. }
  assert (BW : forall k, leaf s k -> exists c, In c cs /\ path s k (ch_bones c)).
  { intros k Lk. destruct (nth_error s k) as [b|] eqn:E; [|apply nth_error_None in E; destruct Lk; lia].
    assert (Ib : In b (filter is_end_effector s)) by (apply filter_In; split; [eapply nth_error_In; eauto|apply (LF k b E); auto]).
    destruct (make_chain_ok s k b HT E) as (l & P & EM). exists (mkChain l (mkV 10 0 0) vzero). split; auto.
    clear - F2 Ib EM. induction F2 as [|b0 c0 l0 r0 E0 F IH]; [destruct Ib|]. destruct Ib as [->|Ib]; [left; congruence|right; auto]. }
  split; [|split; [exact BW|split]].
  - intros c Hc. destruct (FW c Hc) as (b & k & _ & _ & A & B & C & D). eauto.
  - (* no path twice *)
    assert (ND : NoDup (filter is_end_effector s)).
    { apply NoDup_filter. apply NoDup_nth_error. intros a b La E. destruct (nth_error s a) as [x|] eqn:Ea; [|apply nth_error_None in Ea; lia]. symmetry in E.
      rewrite <- (bt_idx s HT a x Ea), <- (bt_idx s HT b x E). auto. }
    assert (INC : forall b, In b (filter is_end_effector s) -> In b s) by (intros b H; apply filter_In in H; tauto).
    clear - F2 ND INC HT. revert ND INC. induction F2 as [|b c l r E F IH]; intros ND INC; cbn; [constructor|]. inversion ND as [|? ? N1 N2]; subst. constructor; [|apply IH; auto; intros; apply INC; right; auto].
    intros I. apply in_map_iff in I. destruct I as (c' & Ec & Ic).
    assert (X : exists b', In b' l /\ make_chain s b' = Some c').
    { clear - F Ic. induction F as [|b0 c0 l0 r0 E0 F IH]; [destruct Ic|]. destruct Ic as [<-|Ic]; [exists b0; split; [left; auto|auto]|]. destruct (IH Ic) as (b & I & E). exists b. split; [right; auto|auto]. }
    destruct X as (b' & Ib' & E'). assert (Sb : In b s) by (apply INC; left; auto). assert (Sb' : In b' s) by (apply INC; right; auto).
    apply In_nth_error in Sb, Sb'. destruct Sb as (k & Hk), Sb' as (k' & Hk'). destruct (make_chain_ok s k b HT Hk) as (p & P & M). destruct (make_chain_ok s k' b' HT Hk') as (p' & P' & M').
    rewrite M in E. rewrite M' in E'. injection E as <-. injection E' as <-. cbn in Ec. subst p'. destruct (path_last _ _ _ P) as (q & Q). destruct (path_last _ _ _ P') as (q' & Q'). rewrite Q in Q'.
    apply app_inj_tail in Q'. destruct Q' as [_ ->]. rewrite Hk in Hk'. injection Hk' as <-. contradiction.
  - intros k Hk. destruct (leaf_below s k HT Hk) as (l & Ll & D). destruct (BW l Ll) as (c & Ic & P). exists c. split; auto. apply (path_desc _ _ _ _ P). auto.
Qed.
(** the path determines the chain *)
Theorem C89_path_unique s k l l' : path s k l -> path s k l' -> l' = l.
Proof. intros H H'. eapply path_unique; eauto. Qed.
Lemma C89_nonvacuous : make_chains ex_skeleton = Some [mkChain [0; 2]%nat (mkV 10 0 0) vzero; mkChain [0; 1; 3]%nat (mkV 10 0 0) vzero] /\ path ex_skeleton 3 [0; 1; 3]%nat /\ leaf ex_skeleton 2.
Proof.
  split; [reflexivity|]. split.
  - apply (path_bone _ 1 3 (mkBone 3 [89; 88; 90]%nat 0 0 1 q_identity vzero (mkV 0 2 0) 1 []) [0; 1]%nat); try reflexivity.
    apply (path_bone _ 0 1 (mkBone 1 [88; 89; 90]%nat 1 2 3 q_identity vzero (mkV 0 0 1) 0 [3]%nat) [0]%nat); try reflexivity.
    eapply path_root; reflexivity.
  - split; [cbn; lia|]. intros j (b & Hb & P). do 4 (destruct j as [|j]; [injection Hb as <-; cbn in P; lia|]). cbn in Hb. destruct j; discriminate.
Qed.
Print Assumptions C87_tree.
Print Assumptions C87_create_root.
Print Assumptions C87_add_bone.
Print Assumptions C88_poses.
Print Assumptions C88_frame_unique.
Print Assumptions C88_idempotent.
Print Assumptions C88_rigid.
Print Assumptions C89_chains.
Print Assumptions C89_path_unique.
