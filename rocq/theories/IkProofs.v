(** The bone tree, forward kinematics and chains. *)
From Verif Require Import Base VecModel QuatModel QuatProofs BvhModel BvhProofs IkModel IkSpec.
Open Scope R_scope.

Lemma loop_app {A S} (f : S -> A -> option S) l1 l2 : forall s, loop f (l1 ++ l2) s = match loop f l1 s with Some s' => loop f l2 s' | None => None end.
Proof. induction l1; intros; cbn; auto. destruct (f s a); auto. Qed.

Lemma nth_snoc {A} (l : list A) x k y : nth_error (l ++ [x]) k = Some y -> (nth_error l k = Some y /\ (k < length l)%nat) \/ (k = length l /\ y = x).
Proof.
  intros H. destruct (Nat.lt_ge_cases k (length l)).
  - left. rewrite nth_error_app1 in H; auto.
  - right. rewrite nth_error_app2 in H by auto. destruct (k - length l)%nat eqn:E; cbn in H; [injection H as <-; split; auto; lia|]. destruct n; discriminate.
Qed.
Lemma nth_lt {A} (l : list A) k x : nth_error l k = Some x -> (k < length l)%nat.
Proof. intros. apply nth_error_Some. congruence. Qed.

(** two skeletons with the same parents, indices and children are both trees *)
Definition shape_of (b : bone) := (bn_idx b, bn_parent b, bn_children b).
Lemma shape_nth s s' k b : map shape_of s = map shape_of s' -> nth_error s k = Some b -> exists b', nth_error s' k = Some b' /\ shape_of b' = shape_of b.
Proof.
  intros E H. assert (X : nth_error (map shape_of s') k = Some (shape_of b)) by (rewrite <- E; apply map_nth_error; auto).
  destruct (nth_error s' k) as [b'|] eqn:E'; [|rewrite nth_error_map, E' in X; discriminate].
  rewrite nth_error_map, E' in X. cbn in X. injection X as X1 X2 X3. exists b'. split; auto. unfold shape_of. congruence.
Qed.
Lemma tree_shape s s' : map shape_of s = map shape_of s' -> bone_tree s -> bone_tree s'.
Proof.
  intros E [H1 H2 H3 H4 H5]. pose proof (eq_sym E) as E'.
  assert (P : forall k j, parent_is s k j <-> parent_is s' k j).
  { intros k j; split; intros (b & Hb & Hp); [destruct (shape_nth s s' j b E Hb) as (b' & A & B)|destruct (shape_nth s' s j b E' Hb) as (b' & A & B)];
    exists b'; split; auto; unfold shape_of in B; congruence. }
  split.
  - intros k b Hb. destruct (shape_nth s' s k b E' Hb) as (b' & A & B). unfold shape_of in B. rewrite <- (H1 _ _ A). congruence.
  - intros b Hb. destruct (shape_nth s' s 0 b E' Hb) as (b' & A & B). unfold shape_of in B. rewrite <- (H2 _ A). congruence.
  - intros k b Hk Hb. destruct (shape_nth s' s k b E' Hb) as (b' & A & B). unfold shape_of in B. destruct (H3 _ _ Hk A) as (p & X & Y). exists p; split; congruence.
  - intros k b j Hb. destruct (shape_nth s' s k b E' Hb) as (b' & A & B). unfold shape_of in B. replace (bn_children b) with (bn_children b') by congruence.
    rewrite (H4 _ _ _ A). apply P.
  - intros k b Hb. destruct (shape_nth s' s k b E' Hb) as (b' & A & B). unfold shape_of in B. replace (bn_children b) with (bn_children b') by congruence. eauto.
Qed.

Lemma map_upd {A B} (f : A -> B) l : forall k x y, nth_error l k = Some y -> f x = f y -> map f (list_upd l k x) = map f l.
Proof. induction l as [|a l IH]; intros [|k] x y H E; cbn in *; try discriminate; [injection H as ->; congruence|]. f_equal. eapply IH; eauto. Qed.

Lemma set_angle_shape i x s s' : set_angle i x s = Some s' -> map shape_of s' = map shape_of s.
Proof.
  unfold set_angle. destruct (py_idx s (i / 3)) as [k|]; [|discriminate]. destruct (nth_error s k) as [b|] eqn:E; [|discriminate]. intros H.
  destruct (Z.eqb _ _); [injection H as <-; eapply map_upd; eauto|]. destruct (Z.eqb _ _); [injection H as <-; eapply map_upd; eauto|].
  destruct (Z.eqb _ _); [injection H as <-; eapply map_upd; eauto|discriminate].
Qed.
Lemma set_joint_angles_shape l s : map shape_of (fst (set_joint_angles s l)) = map shape_of s.
Proof.
  induction s as [|b s IH]; cbn; auto. unfold set_bone_angles.
  destruct (nth_error l _); [|reflexivity]. destruct (nth_error l _); [|reflexivity]. destruct (nth_error l _); [|reflexivity].
  destruct (set_joint_angles s l); cbn in *. f_equal; auto.
Qed.
Lemma strip_shape s s' : map strip s = map strip s' -> map shape_of s = map shape_of s'.
Proof.
  revert s'. induction s as [|b s IH]; intros [|b' s'] H; cbn in *; try discriminate; auto.
  injection H as H. f_equal; auto. unfold shape_of. congruence.
Qed.

Lemma loop_inv {A S} (P : S -> Prop) (f : S -> A -> option S) l : (forall s a s', In a l -> P s -> f s a = Some s' -> P s') ->
  forall s s', P s -> loop f l s = Some s' -> P s'.
Proof.
  induction l as [|a l IH]; intros Hf s s' H E; cbn in E; [congruence|]. destruct (f s a) as [s1|] eqn:E1; [|discriminate].
  apply (IH (fun s a s' Ha => Hf s a s' (or_intror Ha)) s1 s'); auto. eapply Hf; eauto. left; auto.
Qed.

Lemma update_bone_strip f : forall s k s', update_bone f s k = Some s' -> same_joints s s'.
Proof.
  unfold same_joints. induction f as [|f IH]; intros s k s' H; cbn in H; [discriminate|].
  destruct (nth_error s k) as [b|] eqn:E; [|discriminate]. destruct (joint_rotation b); [|discriminate].
  destruct (parent_pose s b) as [[tp qp]|]; [|discriminate].
  symmetry. eapply (loop_inv (fun x => map strip x = map strip s)); [|..|exact H].
  - intros s1 a s2 _ X Y. rewrite <- X. symmetry. eapply IH; eauto.
  - eapply map_upd; eauto.
Qed.
Lemma update_strip s s' : update_skeleton s = Some s' -> same_joints s s'.
Proof. apply update_bone_strip. Qed.

(** ** what the API builds is a tree *)
Definition codes_ok (s : skeleton) : Prop := forall k b, nth_error s k = Some b -> is_valid_euler_code (bn_code b) = true.

Lemma py_idx_in {A} (l : list A) z : (0 <= z < Z.of_nat (length l))%Z -> py_idx l z = Some (Z.to_nat z).
Proof. intros H. rewrite <- (Z2Nat.id z) at 1 by lia. rewrite py_idx_nat; auto. lia. Qed.

Lemma add_bone_inv s p a b g x y z code s' : add_bone s p a b g x y z code = Some s' ->
  exists k pb, p = Z.of_nat k /\ nth_error s k = Some pb /\ (k < length s)%nat /\ is_valid_euler_code code = true /\
  s' = list_upd s k (add_child pb (length s)) ++ [mkBone (length s) code a b g q_identity vzero (mkV x y z) p []].
Proof.
  unfold add_bone. destruct (has_bone s p) eqn:Hb; [|discriminate]. cbn [negb]. destruct (is_valid_euler_code code); [|discriminate]. cbn [negb].
  unfold has_bone in Hb. apply andb_prop in Hb. destruct Hb as [H1 H2]. apply Z.ltb_lt in H1. apply Z.leb_le in H2.
  unfold py_get, py_set. rewrite py_idx_in by lia. destruct (nth_error s (Z.to_nat p)) as [pb|] eqn:E; [|discriminate]. intros H. injection H as <-.
  exists (Z.to_nat p), pb. rewrite Z2Nat.id by lia. repeat split; auto. eapply nth_lt; eauto.
Qed.
Lemma add_bone_tree s p a b g x y z code s' : bone_tree s -> add_bone s p a b g x y z code = Some s' -> bone_tree s'.
Proof.
  intros [H1 H2 H3 H4 H5] H. destruct (add_bone_inv _ _ _ _ _ _ _ _ _ _ H) as (k & pb & -> & Hk & Lk & _ & ->). clear H.
  set (e := mkBone _ _ _ _ _ _ _ _ _ _). set (s1 := list_upd s k (add_child pb (length s))).
  assert (L1 : length s1 = length s) by apply list_upd_length.
  assert (N : forall j bj, nth_error (s1 ++ [e]) j = Some bj -> (j < length s)%nat /\ (j = k /\ bj = add_child pb (length s) \/ j <> k /\ nth_error s j = Some bj) \/ (j = length s /\ bj = e)).
  { intros j bj Hj. apply nth_snoc in Hj. rewrite L1 in Hj. destruct Hj as [[Hj Lj]|[-> ->]]; [left|right; auto]. split; auto.
    destruct (Nat.eq_dec j k) as [->|D]; [left|right]; unfold s1 in Hj.
    - rewrite list_upd_same in Hj by auto. split; congruence.
    - rewrite list_upd_other in Hj by auto. auto. }
  assert (N' : forall j bj, nth_error s j = Some bj -> exists bj', nth_error (s1 ++ [e]) j = Some bj' /\ bn_parent bj' = bn_parent bj).
  { intros j bj Hj. pose proof (nth_lt _ _ _ Hj). rewrite nth_error_app1 by lia. destruct (Nat.eq_dec j k) as [->|D]; unfold s1.
    - rewrite list_upd_same by auto. eexists; split; [reflexivity|]. cbn. congruence.
    - rewrite list_upd_other by auto. eauto. }
  assert (NE : nth_error (s1 ++ [e]) (length s) = Some e) by (rewrite nth_error_app2, L1, Nat.sub_diag by lia; reflexivity).
  assert (Q : forall p j, parent_is (s1 ++ [e]) p j <-> parent_is s p j \/ (j = length s /\ p = k)).
  { intros p j; split.
    - intros (bj & Hj & Pj). destruct (N _ _ Hj) as [[L [[-> ->]|[D Hj']]]|[-> ->]].
      + left. exists pb; split; auto.
      + left. exists bj; auto.
      + right. split; auto. cbn in Pj. lia.
    - intros [(bj & Hj & Pj)|[-> ->]].
      + destruct (N' _ _ Hj) as (b' & X & Y). exists b'; split; congruence.
      + exists e. split; auto. }
  split.
  - intros j bj Hj. destruct (N _ _ Hj) as [[L [[-> ->]|[D Hj']]]|[-> ->]]; cbn; eauto.
  - intros bj Hj. destruct (N _ _ Hj) as [[L [[E ->]|[D Hj']]]|[E ->]]; cbn; [apply H2; congruence|eauto|].
    lia.
  - intros j bj Pj Hj. destruct (N _ _ Hj) as [[L [[-> ->]|[D Hj']]]|[-> ->]]; cbn; eauto.
  - intros j bj i Hj. rewrite Q. destruct (N _ _ Hj) as [[L [[-> ->]|[D Hj']]]|[-> ->]].
    + cbn. rewrite in_app_iff, (H4 _ _ _ Hk). cbn. intuition auto.
    + rewrite (H4 _ _ _ Hj'). intuition congruence.
    + cbn. split; [tauto|]. intros [(bi & Hi & Pi)|[-> E]]; [|lia].
      pose proof (nth_lt _ _ _ Hi). destruct i; [rewrite (H2 _ Hi) in Pi; lia|]. destruct (H3 (S i) bi ltac:(lia) Hi) as (q & Eq & Lq). lia.
  - intros j bj Hj. destruct (N _ _ Hj) as [[L [[-> ->]|[D Hj']]]|[-> ->]]; cbn; [|eauto|constructor].
    assert (~ In (length s) (bn_children pb)). { rewrite (H4 _ _ _ Hk). intros (bi & Hi & _). apply nth_lt in Hi. lia. }
    specialize (H5 _ _ Hk). revert H5 H. generalize (bn_children pb). induction l as [|c l IH]; cbn; intros ND NI; [repeat constructor; auto|].
    inversion ND; subst. constructor; [rewrite in_app_iff; cbn; intuition|]. apply IH; auto.
Qed.

Section Stable.
  Variable P : skeleton -> Prop.
  Hypothesis PA : forall i x s s', P s -> set_angle i x s = Some s' -> P s'.
  Hypothesis PU : forall s s', P s -> update_skeleton s = Some s' -> P s'.
  Lemma objective_at_stable cs s f s' : P s -> objective_at cs s = Some (f, s') -> P s'.
  Proof.
    unfold objective_at. intros H E. destruct (update_skeleton s) as [s1|] eqn:U; [|discriminate]. destruct (compute_objective cs s1); [|discriminate].
    injection E as <- <-. eauto.
  Qed.
  Ltac crack := repeat match goal with
    | H : context [match objective_at ?c ?s with _ => _ end] |- _ => let E := fresh "E" in destruct (objective_at c s) as [[? ?]|] eqn:E; [|discriminate H]
    | H : context [match set_angle ?i ?x ?s with _ => _ end] |- _ => let E := fresh "E" in destruct (set_angle i x s) eqn:E; [|discriminate H]
    | H : context [match get_angle ?i ?s with _ => _ end] |- _ => let E := fresh "E" in destruct (get_angle i s) eqn:E; [|discriminate H]
    end.
  Ltac forward := repeat match goal with
      | X : P ?s, E : set_angle _ _ ?s = Some ?t |- _ => pose proof (PA _ _ _ _ X E); clear E
      | X : P ?s, E : objective_at _ ?s = Some (_, ?t) |- _ => pose proof (objective_at_stable _ _ _ _ X E); clear E
      end.
  Lemma fd_first_stable cs s i h d s' : P s -> fd_first cs s i h = Some (d, s') -> P s'.
  Proof. unfold fd_first. intros H E. crack. destruct (Reqb h 0); [discriminate|]. injection E as _ <-. forward. auto. Qed.
  Lemma fd_second_stable cs s i j h d s' : P s -> fd_second cs s i j h = Some (d, s') -> P s'.
  Proof.
    unfold fd_second. intros H E. destruct (Nat.eqb i j); crack; (destruct (Reqb h 0); [discriminate|]); injection E as _ <-.
    - forward. auto.
    - forward. auto.
  Qed.
  Lemma fd_gradient_stable cs s h g s' : P s -> fd_gradient cs s h = Some (g, s') -> P s'.
  Proof.
    unfold fd_gradient. intros H E. change (P (snd (g, s'))). eapply (loop_inv (fun st => P (snd st))); [|..|exact E]; [|exact H].
    intros [l s1] a [l2 s2] _ H1 E1. cbn in *. destruct (fd_first cs s1 a h) as [[d s3]|] eqn:F; [|discriminate]. injection E1 as _ <-. eapply fd_first_stable; eauto.
  Qed.
  Lemma fd_hessian_row_stable cs s N i h g s' : P s -> fd_hessian_row cs s N i h = Some (g, s') -> P s'.
  Proof.
    unfold fd_hessian_row. intros H E. change (P (snd (g, s'))). eapply (loop_inv (fun st => P (snd st))); [|..|exact E]; [|exact H].
    intros [l s1] a [l2 s2] _ H1 E1. cbn in *. destruct (fd_second cs s1 i a h) as [[d s3]|] eqn:F; [|discriminate]. injection E1 as _ <-. eapply fd_second_stable; eauto.
  Qed.
  Lemma fd_hessian_stable cs s h g s' : P s -> fd_hessian cs s h = Some (g, s') -> P s'.
  Proof.
    unfold fd_hessian. intros H E. change (P (snd (g, s'))). eapply (loop_inv (fun st => P (snd st))); [|..|exact E]; [|exact H].
    intros [l s1] a [l2 s2] _ H1 E1. cbn in *. destruct (fd_hessian_row cs s1 _ a h) as [[d s3]|] eqn:F; [|discriminate]. injection E1 as _ <-. eapply fd_hessian_row_stable; eauto.
  Qed.
End Stable.

Lemma update_tree s s' : bone_tree s -> update_skeleton s = Some s' -> bone_tree s'.
Proof. intros H E. eapply tree_shape; [|exact H]. apply strip_shape. apply update_strip; auto. Qed.
Lemma set_angle_tree i x s s' : bone_tree s -> set_angle i x s = Some s' -> bone_tree s'.
Proof. intros H E. eapply tree_shape; [|exact H]. symmetry. eapply set_angle_shape; eauto. Qed.

Lemma built_tree s : built s -> bone_tree s.
Proof.
  induction 1.
  - split; intros; destruct k || idtac; cbn in *; try discriminate. all: destruct k; discriminate.
  - unfold create_root in H0. destruct (has_root s) eqn:E; [discriminate|]. destruct (negb _); [discriminate|]. injection H0 as <-.
    unfold has_root in E. destruct s; [|discriminate]. cbn.
    split; intros; destruct k as [|[|k]] || idtac; cbn in *; try discriminate; try lia; try (match goal with H : Some _ = Some _ |- _ => injection H as <- end; cbn; auto; try lia).
    + split; [tauto|]. intros (b' & H1 & H2). destruct j as [|[|j]]; cbn in H1; try discriminate. injection H1 as <-. cbn in H2. lia.
    + constructor.
  - eapply add_bone_tree; eauto.
  - eapply set_angle_tree; eauto.
  - eapply tree_shape; [|exact IHbuilt]. symmetry; apply set_joint_angles_shape.
  - eapply update_tree; eauto.
  - eapply fd_gradient_stable; [..|exact H0]; eauto using set_angle_tree, update_tree.
  - eapply fd_hessian_stable; [..|exact H0]; eauto using set_angle_tree, update_tree.
Qed.

(** ** valid codes *)
Lemma codes_map s s' : map bn_code s' = map bn_code s -> codes_ok s -> codes_ok s'.
Proof.
  intros E H k b Hb. assert (X : nth_error (map bn_code s) k = Some (bn_code b)) by (rewrite <- E; apply map_nth_error; auto).
  rewrite nth_error_map in X. destruct (nth_error s k) eqn:Y; [|discriminate]. cbn in X. injection X as <-. eauto.
Qed.
Lemma strip_code s s' : map strip s = map strip s' -> map bn_code s = map bn_code s'.
Proof.
  revert s'. induction s as [|b s IH]; intros [|b' s'] H; cbn in *; try discriminate; auto.
  injection H as H. f_equal; auto.
Qed.
Lemma set_angle_code i x s s' : set_angle i x s = Some s' -> map bn_code s' = map bn_code s.
Proof.
  unfold set_angle. destruct (py_idx s (i / 3)) as [k|]; [|discriminate]. destruct (nth_error s k) as [b|] eqn:E; [|discriminate]. intros H.
  destruct (Z.eqb _ _); [injection H as <-; eapply map_upd; eauto|]. destruct (Z.eqb _ _); [injection H as <-; eapply map_upd; eauto|].
  destruct (Z.eqb _ _); [injection H as <-; eapply map_upd; eauto|discriminate].
Qed.
Lemma set_joint_angles_code l s : map bn_code (fst (set_joint_angles s l)) = map bn_code s.
Proof.
  induction s as [|b s IH]; cbn; auto. unfold set_bone_angles.
  destruct (nth_error l _); [|reflexivity]. destruct (nth_error l _); [|reflexivity]. destruct (nth_error l _); [|reflexivity].
  destruct (set_joint_angles s l); cbn in *. f_equal; auto.
Qed.
Lemma update_codes s s' : codes_ok s -> update_skeleton s = Some s' -> codes_ok s'.
Proof. intros H E. eapply codes_map; [|exact H]. symmetry. apply strip_code. apply update_strip; auto. Qed.
Lemma set_angle_codes i x s s' : codes_ok s -> set_angle i x s = Some s' -> codes_ok s'.
Proof. intros H E. eapply codes_map; [|exact H]. eapply set_angle_code; eauto. Qed.
Lemma codes_snoc s b : codes_ok s -> is_valid_euler_code (bn_code b) = true -> codes_ok (s ++ [b]).
Proof. intros H Hb k x Hx. destruct (nth_snoc _ _ _ _ Hx) as [[? _]|[_ ->]]; eauto. Qed.
Lemma built_codes s : built s -> codes_ok s.
Proof.
  induction 1.
  - intros k b Hb. destruct k; discriminate.
  - unfold create_root in H0. destruct (has_root s) eqn:E; [discriminate|]. destruct (is_valid_euler_code code) eqn:V; [|discriminate]. injection H0 as <-.
    apply codes_snoc; auto.
  - destruct (add_bone_inv _ _ _ _ _ _ _ _ _ _ H0) as (k & pb & -> & Hk & Lk & V & ->). apply codes_snoc; auto.
    eapply codes_map; [|exact IHbuilt]. eapply map_upd; eauto.
  - eapply set_angle_codes; eauto.
  - eapply codes_map; [|exact IHbuilt]. apply set_joint_angles_code.
  - eapply update_codes; eauto.
  - eapply fd_gradient_stable; [..|exact H0]; eauto using set_angle_codes, update_codes.
  - eapply fd_hessian_stable; [..|exact H0]; eauto using set_angle_codes, update_codes.
Qed.

(** ** letters *)
Definition letter (c : nat) : Prop := c = cX \/ c = cY \/ c = cZ.
Definition letter_axis (c : nat) : vec3 := if Nat.eqb c cX then mkV 1 0 0 else if Nat.eqb c cY then mkV 0 1 0 else mkV 0 0 1.
Definition letter_rot (c : nat) (x : R) : quat := if Nat.eqb c cX then q_Rx x else if Nat.eqb c cY then q_Ry x else q_Rz x.
Lemma valid_letters code : is_valid_euler_code code = true -> exists a b c, code = [a; b; c] /\ letter a /\ letter b /\ letter c.
Proof.
  unfold is_valid_euler_code. rewrite orb_true_iff, !existsb_exists. unfold letter.
  assert (X : forall l, code_eqb code l = true -> code = l) by (intros l; unfold code_eqb; destruct list_eq_dec; auto; discriminate).
  intros [(l & Hl & El)|(l & Hl & El)]; apply X in El; subst l; cbn in Hl;
  repeat (destruct Hl as [<-|Hl]; [eexists _, _, _; split; [reflexivity|auto 10]|]); destruct Hl.
Qed.
Lemma letter_get b i c : nth_error (bn_code b) i = Some c -> letter c -> get_axis b i = Some (letter_axis c) /\ (forall x, get_rotation b i x = Some (letter_rot c x)).
Proof. unfold get_axis, get_rotation. intros ->. intros [->|[->| ->]]; auto. Qed.
Lemma letter_rot_unit c x : is_unit (letter_rot c x).
Proof. unfold letter_rot, is_unit, qdot. pose proof (sin2_cos2 (x/2)) as H. unfold Rsqr in H. destruct (Nat.eqb _ _); [|destruct (Nat.eqb _ _)]; cbn; lra. Qed.
