(** Derivatives of world poses with respect to one joint angle. *)
From Coq Require Import Arith.Wf_nat.
From Coquelicot Require Import Coquelicot.
From Verif Require Import Base VecModel QuatModel QuatProofs BvhModel BvhProofs IkModel IkSpec IkProofs IkPose.
Open Scope R_scope.

(** ** derivatives of vector valued functions *)
Definition vderiv (F : R -> vec3) (x : R) (D : vec3) : Prop :=
  derivable_pt_lim (fun t => vx (F t)) x (vx D) /\ derivable_pt_lim (fun t => vy (F t)) x (vy D) /\ derivable_pt_lim (fun t => vz (F t)) x (vz D).
Lemma dlim_eq f x a b : derivable_pt_lim f x a -> a = b -> derivable_pt_lim f x b.
Proof. intros H <-; auto. Qed.
Lemma dlim_ext f g x a : (forall t, f t = g t) -> derivable_pt_lim f x a -> derivable_pt_lim g x a.
Proof. intros E H. apply is_derive_Reals. apply is_derive_Reals in H. eapply is_derive_ext; eauto. Qed.
Lemma vderiv_eq F x D D' : vderiv F x D -> D = D' -> vderiv F x D'.
Proof. intros H <-; auto. Qed.
Lemma vderiv_ext F G x D : (forall t, F t = G t) -> vderiv F x D -> vderiv G x D.
Proof. intros E (A & B & C). split; [|split]; eapply dlim_ext; eauto; intros; cbv beta; rewrite E; auto. Qed.
Lemma vderiv_const v x : vderiv (fun _ => v) x vzero.
Proof. split; [|split]; apply derivable_pt_lim_const. Qed.
Lemma vderiv_add F G x D E : vderiv F x D -> vderiv G x E -> vderiv (fun t => vadd (F t) (G t)) x (vadd D E).
Proof. intros (A & B & C) (A' & B' & C'). split; [|split]; unfold vadd; cbn; apply (derivable_pt_lim_plus _ _ x); auto. Qed.
Lemma vderiv_sub F G x D E : vderiv F x D -> vderiv G x E -> vderiv (fun t => vsub (F t) (G t)) x (vsub D E).
Proof. intros (A & B & C) (A' & B' & C'). split; [|split]; unfold vsub; cbn; apply (derivable_pt_lim_minus _ _ x); auto. Qed.
Lemma dlim_mult f g x a b : derivable_pt_lim f x a -> derivable_pt_lim g x b -> derivable_pt_lim (fun t => f t * g t) x (a * g x + f x * b).
Proof. intros. apply (derivable_pt_lim_mult f g x); auto. Qed.
Lemma dlim_plus f g x a b : derivable_pt_lim f x a -> derivable_pt_lim g x b -> derivable_pt_lim (fun t => f t + g t) x (a + b).
Proof. intros. apply (derivable_pt_lim_plus f g x); auto. Qed.
Lemma dlim_minus f g x a b : derivable_pt_lim f x a -> derivable_pt_lim g x b -> derivable_pt_lim (fun t => f t - g t) x (a - b).
Proof. intros. apply (derivable_pt_lim_minus f g x); auto. Qed.
Lemma dlim_opp f x a : derivable_pt_lim f x a -> derivable_pt_lim (fun t => - f t) x (- a).
Proof. intros. apply (derivable_pt_lim_opp f x); auto. Qed.
Lemma vderiv_dot F G x D E : vderiv F x D -> vderiv G x E -> derivable_pt_lim (fun t => vdot (F t) (G t)) x (vdot D (G x) + vdot (F x) E).
Proof.
  intros (A & B & C) (A' & B' & C'). unfold vdot. eapply dlim_eq; [apply dlim_plus; [apply dlim_plus|]; apply dlim_mult; eauto|]. cbv beta. ring.
Qed.
Lemma vderiv_cross F G x D E : vderiv F x D -> vderiv G x E -> vderiv (fun t => vcross (F t) (G t)) x (vadd (vcross D (G x)) (vcross (F x) E)).
Proof.
  intros (A & B & C) (A' & B' & C'). unfold vcross. split; [|split]; cbn;
  (eapply dlim_eq; [apply dlim_minus; apply dlim_mult; eauto|]; cbv beta; ring).
Qed.
(** a linear map *)
Lemma vderiv_mvec M F x D : vderiv F x D -> vderiv (fun t => mvec M (F t)) x (mvec M D).
Proof.
  intros (A & B & C). unfold mvec. split; [|split]; cbn;
  (eapply dlim_eq; [apply dlim_plus; [apply dlim_plus|]; (apply dlim_mult; [apply derivable_pt_lim_const|eauto])|]; cbv beta; ring).
Qed.
Lemma vderiv_rotate q F x D : is_unit q -> vderiv F x D -> vderiv (fun t => q_rotate q (F t)) x (q_rotate q D).
Proof.
  intros U H. rewrite <- (umat_rotate q D U). eapply vderiv_ext; [|apply (vderiv_mvec (umat q)); eauto]. intros t. cbv beta. apply umat_rotate; auto.
Qed.

(** ** turning about a coordinate axis *)
Lemma letter_turn c x v : letter c -> q_rotate (letter_rot c x) v =
  if Nat.eqb c cX then mkV (vx v) (vy v * cos x - vz v * sin x) (vy v * sin x + vz v * cos x)
  else if Nat.eqb c cY then mkV (vx v * cos x + vz v * sin x) (vy v) (vz v * cos x - vx v * sin x)
  else mkV (vx v * cos x - vy v * sin x) (vx v * sin x + vy v * cos x) (vz v).
Proof.
  intros L. rewrite <- umat_rotate by apply letter_rot_unit. pose proof (turn_umat c x L) as H. revert H. generalize (umat (letter_rot c x)). intros M H.
  destruct H; cbn [Nat.eqb cX cY cZ]; unfold mvec; cbn; f_equal; ring.
Qed.
Lemma letter_deriv c v x : letter c -> vderiv (fun t => q_rotate (letter_rot c t) v) x (vcross (letter_axis c) (q_rotate (letter_rot c x) v)).
Proof.
  intros L. rewrite letter_turn by auto. eapply vderiv_ext; [intros t; symmetry; apply letter_turn; auto|].
  unfold letter_axis. destruct L as [->|[->| ->]]; cbn [Nat.eqb cX cY cZ]; unfold vderiv, vcross; cbn [vx vy vz];
  repeat split; apply is_derive_Reals; auto_derive; auto; ring.
Qed.

(** ** one joint *)
Definition set_ang (o : nat) (b : bone) (x : R) : bone := match o with O => set_alpha b x | S O => set_beta b x | _ => set_gamma b x end.
Definition ang (o : nat) (b : bone) : R := match o with O => bn_alpha b | S O => bn_beta b | _ => bn_gamma b end.
Definition axis_local (o : nat) (b : bone) : vec3 :=
  match o with
  | O => letter_axis (code_at b 0)
  | S O => q_rotate (rotA b) (letter_axis (code_at b 1))
  | _ => q_rotate (q_prod (rotA b) (rotB b)) (letter_axis (code_at b 2))
  end.
Lemma set_ang_same o b : set_ang o b (ang o b) = b.
Proof. destruct b, o as [|[|o]]; reflexivity. Qed.
Lemma axis_local_own o b x : axis_local o (set_ang o b x) = axis_local o b.
Proof. destruct o as [|[|o]]; reflexivity. Qed.
Lemma axis_local_before o o' b x : (o' <= o)%nat -> (o < 3)%nat -> axis_local o' (set_ang o b x) = axis_local o' b.
Proof. intros H H3. destruct o as [|[|[|o]]], o' as [|[|[|o']]]; try lia; reflexivity. Qed.
Lemma letter_code b i : is_valid_euler_code (bn_code b) = true -> (i < 3)%nat -> letter (code_at b i).
Proof. intros V H. apply (code_get b V i H). Qed.
Lemma rotA_unit b : is_unit (rotA b). Proof. apply letter_rot_unit. Qed.
Lemma rotB_unit b : is_unit (rotB b). Proof. apply letter_rot_unit. Qed.
Lemma rotC_unit b : is_unit (rotC b). Proof. apply letter_rot_unit. Qed.
Lemma rot_cross q u v : is_unit q -> q_rotate q (vcross u v) = vcross (q_rotate q u) (q_rotate q v).
Proof. intros U. unfold is_unit in U. rewrite q_rotate_cross, U. generalize (q_rotate q (vcross u v)). intros [a b c]. unfold vscale; cbn. f_equal; ring. Qed.
Lemma vcross_zero_l v : vcross vzero v = vzero.
Proof. unfold vcross, vzero; cbn; f_equal; ring. Qed.
Lemma vcross_zero_r v : vcross v vzero = vzero.
Proof. unfold vcross, vzero; cbn; f_equal; ring. Qed.
Lemma vcross_self v : vcross v v = vzero.
Proof. unfold vcross, vzero; cbn; f_equal; ring. Qed.
Lemma vadd_zero_l v : vadd vzero v = v.
Proof. destruct v; unfold vadd, vzero; cbn; f_equal; ring. Qed.
Lemma vadd_zero_r v : vadd v vzero = v.
Proof. destruct v; unfold vadd, vzero; cbn; f_equal; ring. Qed.

Lemma jrot_rotate b v : q_rotate (jrot b) v = q_rotate (rotA b) (q_rotate (rotB b) (q_rotate (rotC b) v)).
Proof. unfold jrot. rewrite !q_rotate_prod. auto. Qed.
Lemma jrot_deriv o b v x : is_valid_euler_code (bn_code b) = true -> (o < 3)%nat ->
  vderiv (fun t => q_rotate (jrot (set_ang o b t)) v) x (vcross (axis_local o b) (q_rotate (jrot (set_ang o b x)) v)).
Proof.
  intros V Ho. eapply vderiv_ext; [intros t; symmetry; apply jrot_rotate|]. rewrite jrot_rotate.
  destruct o as [|[|[|o]]]; try lia; unfold set_ang, axis_local; cbv iota.
  - change (rotB (set_alpha b ?t)) with (rotB b). unfold rotA at 1. cbn [bn_alpha set_alpha]. change (code_at (set_alpha b ?t) 0) with (code_at b 0).
    apply (letter_deriv (code_at b 0) (q_rotate (rotB b) (q_rotate (rotC b) v)) x). apply letter_code; auto.
  - change (rotA (set_beta b ?t)) with (rotA b). rewrite <- rot_cross by apply rotA_unit. apply vderiv_rotate; [apply rotA_unit|].
    apply (letter_deriv (code_at b 1) (q_rotate (rotC b) v) x). apply letter_code; auto.
  - rewrite q_rotate_prod. change (rotA (set_gamma b x)) with (rotA b). change (rotB (set_gamma b x)) with (rotB b).
    rewrite <- rot_cross by apply rotA_unit. rewrite <- rot_cross by apply rotB_unit.
    apply (vderiv_rotate (rotA b) (fun t => q_rotate (rotB b) (q_rotate (rotC (set_gamma b t)) v))); [apply rotA_unit|].
    apply (vderiv_rotate (rotB b) (fun t => q_rotate (rotC (set_gamma b t)) v)); [apply rotB_unit|].
    apply (letter_deriv (code_at b 2) v x). apply letter_code; auto.
Qed.
Lemma axis_deriv o o' b x : is_valid_euler_code (bn_code b) = true -> (o < 3)%nat -> (o' < 3)%nat ->
  vderiv (fun t => axis_local o' (set_ang o b t)) x (if Nat.ltb o o' then vcross (axis_local o b) (axis_local o' (set_ang o b x)) else vzero).
Proof.
  intros V Ho Ho'. destruct (Nat.ltb_spec o o') as [L|L].
  2:{ eapply vderiv_ext; [intros t; symmetry; apply axis_local_before; auto|]. apply vderiv_const. }
  destruct o as [|[|[|o]]], o' as [|[|[|o']]]; try lia; unfold set_ang, axis_local; cbv iota.
  - apply (letter_deriv (code_at b 0) (letter_axis (code_at b 1)) x). apply letter_code; auto.
  - rewrite q_rotate_prod. eapply vderiv_ext; [intros t; symmetry; apply q_rotate_prod|].
    apply (letter_deriv (code_at b 0) (q_rotate (rotB b) (letter_axis (code_at b 2))) x). apply letter_code; auto.
  - rewrite q_rotate_prod. eapply vderiv_ext; [intros t; symmetry; apply q_rotate_prod|].
    change (rotA (set_beta b x)) with (rotA b). rewrite <- rot_cross by apply rotA_unit. 
    apply (vderiv_rotate (rotA b) (fun t => q_rotate (rotB (set_beta b t)) (letter_axis (code_at b 2)))); [apply rotA_unit|].
    apply (letter_deriv (code_at b 1) (letter_axis (code_at b 2)) x). apply letter_code; auto.
Qed.

(** ** one skeleton in which angle [o] of bone [m] varies *)
Definition vary (s : skeleton) (m o : nat) (x : R) : skeleton :=
  match nth_error s m with Some b => list_upd s m (set_ang o b x) | None => s end.
Lemma vary_same s m o b : nth_error s m = Some b -> vary s m o (ang o b) = s.
Proof.
  intros H. unfold vary. rewrite H, set_ang_same. revert m H. induction s as [|a s IH]; intros [|m] H; cbn in *; try discriminate; auto; [congruence|]. f_equal; auto.
Qed.
Lemma vary_at s m o x b : nth_error s m = Some b -> nth_error (vary s m o x) m = Some (set_ang o b x).
Proof. intros H. unfold vary. rewrite H. apply list_upd_same. eapply nth_lt; eauto. Qed.
Lemma vary_other s m o x j : j <> m -> nth_error (vary s m o x) j = nth_error s j.
Proof. intros H. unfold vary. destruct (nth_error s m); auto. apply list_upd_other; auto. Qed.
Lemma vary_shape s m o x : map shape_of (vary s m o x) = map shape_of s.
Proof. unfold vary. destruct (nth_error s m) eqn:E; auto. eapply map_upd; eauto. destruct o as [|[|o]]; reflexivity. Qed.
Lemma vary_code s m o x : map bn_code (vary s m o x) = map bn_code s.
Proof. unfold vary. destruct (nth_error s m) eqn:E; auto. eapply map_upd; eauto. destruct o as [|[|o]]; reflexivity. Qed.
Lemma vary_tree s m o x : bone_tree s -> bone_tree (vary s m o x).
Proof. apply tree_shape. symmetry. apply vary_shape. Qed.
Lemma vary_codes s m o x : codes_ok s -> codes_ok (vary s m o x).
Proof. apply codes_map. apply vary_code. Qed.
Lemma vary_length s m o x : length (vary s m o x) = length s.
Proof. unfold vary. destruct (nth_error s m); auto. apply list_upd_length. Qed.
Lemma parent_shape s s' p j : map shape_of s = map shape_of s' -> parent_is s p j -> parent_is s' p j.
Proof. intros E (b & H & P). destruct (shape_nth _ _ _ _ E H) as (b' & A & B). exists b'. split; auto. unfold shape_of in B. congruence. Qed.

Lemma pos_mod3 m o : (o < 3)%nat -> (Z.of_nat (m * 3 + o) / 3 = Z.of_nat m)%Z /\ (Z.of_nat (m * 3 + o) mod 3 = Z.of_nat o)%Z.
Proof.
  intros H. replace (Z.of_nat (m * 3 + o)) with (Z.of_nat o + Z.of_nat m * 3)%Z by lia. rewrite Z.div_add, Z.mod_add by lia.
  rewrite Z.div_small, Z.mod_small by lia. lia.
Qed.
Lemma set_angle_vary s m o x : (m < length s)%nat -> (o < 3)%nat -> set_angle (Z.of_nat (m * 3 + o)) x s = Some (vary s m o x).
Proof.
  intros Hm Ho. unfold set_angle. destruct (pos_mod3 m o Ho) as [-> ->]. rewrite py_idx_nat by auto. unfold vary.
  destruct (nth_error s m) as [b|] eqn:E; [|apply nth_error_None in E; lia]. destruct o as [|[|[|o]]]; try lia; reflexivity.
Qed.
Lemma get_angle_nat s m o b : nth_error s m = Some b -> (o < 3)%nat -> get_angle (Z.of_nat (m * 3 + o)) s = Some (ang o b).
Proof.
  intros Hm Ho. unfold get_angle. destruct (pos_mod3 m o Ho) as [-> ->]. rewrite py_get_nat, Hm. destruct o as [|[|[|o]]]; try lia; reflexivity.
Qed.

(** orientation of the parent frame and position of bone [m] *)
Definition base_pose (s : skeleton) (m : nat) (T : vec3) (Qp : quat) : Prop :=
  exists b, nth_error s m = Some b /\
  ((m = 0%nat /\ bn_parent b = (-1)%Z /\ T = bn_t b /\ Qp = q_identity) \/
   (exists p Tp, bn_parent b = Z.of_nat p /\ wpose s p Tp Qp /\ T = vadd Tp (q_rotate Qp (bn_t b)))).
Lemma base_unit s m T Qp : base_pose s m T Qp -> is_unit Qp.
Proof. intros (b & _ & [(_ & _ & _ & ->)|(p & Tp & _ & W & _)]); [apply is_unit_identity|eapply wpose_unit; eauto]. Qed.
Lemma base_wpose s m b T Qp : nth_error s m = Some b -> base_pose s m T Qp -> wpose s m T (q_prod Qp (jrot b)).
Proof.
  intros Hb (b' & Hb' & H). assert (b' = b) by congruence. subst b'. destruct H as [(-> & P & -> & ->)|(p & Tp & P & W & ->)].
  - rewrite q_prod_id_l. apply wp_root; auto.
  - eapply wp_bone; eauto.
Qed.
Lemma base_exists s m : bone_tree s -> (m < length s)%nat -> exists T Qp, base_pose s m T Qp.
Proof.
  intros HT Hm. destruct (nth_error s m) as [b|] eqn:E; [|apply nth_error_None in E; lia].
  destruct m as [|m].
  - eexists _, _. exists b. split; [auto|left]. split; [auto|]. split; [eapply bt_root; eauto|auto].
  - destruct (bt_parent s HT (S m) b ltac:(lia) E) as (p & Ep & Lp). destruct (wpose_exists s p HT ltac:(lia)) as (Tp & Qp & W).
    exists (vadd Tp (q_rotate Qp (bn_t b))), Qp. exists b. split; [auto|right]. exists p, Tp. auto.
Qed.
(** bones that do not hang below [m] do not move *)
Lemma wpose_still s m o x k T Q : ~ desc s m k -> wpose s k T Q -> wpose (vary s m o x) k T Q.
Proof.
  intros ND W. induction W.
  - apply wp_root; auto. rewrite vary_other; auto. intros E. apply ND. rewrite E. constructor.
  - assert (k <> m) by (intros E; apply ND; rewrite E; constructor).
    eapply wp_bone; [rewrite vary_other; eauto|eauto|]. apply IHW. intros D. apply ND. eapply desc_child; eauto. exists b; auto.
Qed.
Lemma base_still s m o x k T Q : bone_tree s -> ~ desc s m k \/ m = k -> base_pose s k T Q -> base_pose (vary s m o x) k T Q.
Proof.
  intros HT ND (b & Hb & H).
  assert (NB : exists b', nth_error (vary s m o x) k = Some b' /\ bn_parent b' = bn_parent b /\ bn_t b' = bn_t b).
  { destruct (Nat.eq_dec k m) as [->|D]; [exists (set_ang o b x); rewrite (vary_at _ _ _ _ _ Hb); split; [auto|]; destruct o as [|[|o]]; auto|].
    exists b. rewrite vary_other; auto. }
  destruct NB as (b' & Hb' & P & E). exists b'. split; auto. rewrite P, E. destruct H as [H|(p & Tp & Pp & W & ET)]; [left; auto|right].
  exists p, Tp. split; [auto|split; [|auto]]. apply wpose_still; auto. intros D. assert (PI : parent_is s p k) by (exists b; auto).
  destruct ND as [ND| ->]; [apply ND; eapply desc_child; eauto|]. pose proof (desc_ge _ _ _ HT D). pose proof (parent_lt _ _ _ HT PI). lia.
Qed.
(** bones below [m] move with it: their pose in the frame of [m] is fixed *)
Lemma wpose_moved s m k bm Tm Qp : bone_tree s -> nth_error s m = Some bm -> base_pose s m Tm Qp -> desc s m k ->
  exists p r, is_unit r /\ forall o x, wpose (vary s m o x) k (vadd Tm (q_rotate (q_prod Qp (jrot (set_ang o bm x))) p)) (q_prod (q_prod Qp (jrot (set_ang o bm x))) r).
Proof.
  intros HT Hm HB D. induction D as [|q k D IH HP].
  - exists vzero, q_identity. split; [apply is_unit_identity|]. intros o x. rewrite q_prod_id_r.
    replace (q_rotate (q_prod Qp (jrot (set_ang o bm x))) vzero) with vzero by (symmetry; rewrite q_rotate_formula || idtac; unfold q_rotate, vzero; cbn; f_equal; ring).
    rewrite vadd_zero_r. apply base_wpose; [apply vary_at; auto|]. apply base_still; auto.
  - destruct IH as (p & r & Ur & IH). destruct HP as (b & Hb & Pb). exists (vadd p (q_rotate r (bn_t b))), (q_prod r (jrot b)). split; [apply is_unit_prod; auto; apply jrot_unit|].
    intros o x. set (Q := q_prod Qp (jrot (set_ang o bm x))) in *.
    replace (vadd Tm (q_rotate Q (vadd p (q_rotate r (bn_t b))))) with (vadd (vadd Tm (q_rotate Q p)) (q_rotate (q_prod Q r) (bn_t b))).
    2:{ rewrite q_rotate_add, q_rotate_prod. generalize (q_rotate Q p) (q_rotate Q (q_rotate r (bn_t b))). intros [] []. destruct Tm. unfold vadd; cbn; f_equal; ring. }
    rewrite <- q_prod_assoc. eapply wp_bone; [|eauto|apply IH]. rewrite vary_other; auto.
    assert (PI : parent_is s q k) by (exists b; auto). apply parent_lt in PI; auto. apply desc_ge in D; auto. lia.
Qed.
