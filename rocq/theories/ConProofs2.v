(** Momentum of constraint impulses. *)
From Verif Require Import Base QuatModel VecModel BvhModel GridModel VolModel VecProofs SolverModel SolverProofs ProxModel QuatProofs RigidTypes RigidSpec CollModel StepModel
  StepProofs StepProofs2 ConSpec ConProofs.
Open Scope R_scope.

(** velocities when all bodies move as one rigid body: translation a and rotation w about the origin *)
Definition rigid_field (a w : vec3) (bs : list body) : vec :=
  get_velocity_vector (map (fun b => with_vel b (vadd a (vcross w (b_r b))) w) bs).
Lemma rigid_field_block a w bs k b : nth_error bs k = Some b ->
  read3 (rigid_field a w bs) (6 * k) = vadd a (vcross w (b_r b)) /\ read3 (rigid_field a w bs) (6 * k + 3) = w.
Proof.
  intros H. unfold rigid_field. set (f := fun b => with_vel b (vadd a (vcross w (b_r b))) w).
  destruct (velocity_vector_block (map f bs) k (f b)) as [H1 H2]. { rewrite nth_error_map, H. reflexivity. }
  rewrite H1, H2. split; reflexivity.
Qed.
Lemma rsum_six n f : rsum (6 * n) f = rsum n (fun k => rsum 6 (fun i => f (6 * k + i)%nat)).
Proof.
  induction n as [|n IH]; [reflexivity|]. replace (6 * S n)%nat with (6 * n + 6)%nat by lia. rewrite rsum_add, IH. reflexivity.
Qed.
Lemma vsum_dot a l : vdot a (vsum l) = lsum (map (vdot a) l).
Proof.
  induction l as [|x l IH]; cbn; [destruct a; unfold vdot; cbn; ring|]. unfold lsum in IH. rewrite <- IH. fold (vsum l). destruct a, x, (vsum l); unfold vdot, vadd; cbn; ring.
Qed.
Lemma rsum_lsum n f : rsum n f = lsum (map f (seq 0 n)).
Proof.
  induction n as [|n IH]; [reflexivity|]. rewrite seq_S, map_app. cbn [rsum]. rewrite IH. unfold lsum. rewrite fold_right_app. cbn.
  generalize (map f (seq 0 n)). intros l. induction l; cbn; [ring|]. rewrite <- IHl. ring.
Qed.
(** pairing of a generalised impulse with a rigid motion *)
Lemma momentum_pairing a w bs p : rsum (6 * length bs) (fun l => p l * rigid_field a w bs l) =
  vdot a (total_linear bs p) + vdot w (total_angular bs p).
Proof.
  rewrite rsum_six. rewrite rsum_lsum. unfold total_linear, total_angular. rewrite !vsum_dot, !map_map.
  assert (G : forall l, (forall k b, In (k, b) l -> nth_error bs k = Some b) ->
    lsum (map (fun k => rsum 6 (fun i => p (6 * k + i)%nat * rigid_field a w bs (6 * k + i)%nat)) (map fst l)) =
    lsum (map (fun k => vdot a (read3 p (6 * k))) (map fst l)) +
    lsum (map (fun kb => vdot w (vadd (vcross (b_r (snd kb)) (read3 p (6 * fst kb))) (read3 p (6 * fst kb + 3)))) l)).
  { induction l as [|[k b] l IH]; intros H; [cbn; ring|]. cbn [map fst snd lsum fold_right]. unfold lsum in IH. rewrite IH by (intros; apply H; right; auto).
    destruct (rigid_field_block a w bs k b (H k b (or_introl eq_refl))) as [E1 E2].
    assert (E3 : rsum 6 (fun i => p (6 * k + i)%nat * rigid_field a w bs (6 * k + i)%nat) =
       vdot (read3 p (6 * k)) (read3 (rigid_field a w bs) (6 * k)) + vdot (read3 p (6 * k + 3)) (read3 (rigid_field a w bs) (6 * k + 3))).
    { unfold vdot, read3; cbn [rsum vx vy vz]. rewrite !Nat.add_0_r.
      replace (6 * k + 3 + 1)%nat with (6 * k + 4)%nat by lia. replace (6 * k + 3 + 2)%nat with (6 * k + 5)%nat by lia. ring. }
    rewrite E3, E1, E2. generalize (read3 p (6 * k)) (read3 p (6 * k + 3)). intros [x y z] [x' y' z']. destruct a, w, (b_r b).
    unfold vdot, vadd, vcross; cbn. ring. }
  specialize (G (combine (seq 0 (length bs)) bs)).
  assert (EF : map fst (combine (seq 0 (length bs)) bs) = seq 0 (length bs)).
  { generalize 0%nat. clear. induction bs as [|b bs IH]; intros n; cbn; [reflexivity|]. f_equal. apply IH. }
  rewrite EF in G. apply G. intros k b Hin. apply enum_in. exact Hin.
Qed.
Lemma gen_impulse_pairing n N J x u : rsum N (fun l => gen_impulse n J x l * u l) = rsum n (fun i => x i * mdotv N J u i).
Proof.
  unfold gen_impulse, mdotv. rewrite (rsum_ext N _ (fun l => rsum n (fun i => x i * (J i l * u l)))).
  2:{ intros l _. rewrite Rmult_comm, <- rsum_scale. apply rsum_ext. intros; ring. }
  rewrite rsum_swap. apply rsum_ext. intros i _. apply rsum_scale.
Qed.
Lemma vdot_self_zero v : vdot v v = 0 -> v = vzero.
Proof. destruct v as [x y z]; unfold vdot; cbn. intros H. apply vec3_eq; cbn; nra. Qed.
(** if J annihilates the translations (the rigid motions), J^T x carries no linear (and no angular) momentum *)
Lemma no_linear bs n J x : (forall a i, (i < n)%nat -> mdotv (6 * length bs) J (rigid_field a vzero bs) i = 0) ->
  total_linear bs (gen_impulse n J x) = vzero.
Proof.
  intros H. apply vdot_self_zero. set (a := total_linear bs (gen_impulse n J x)). 
  assert (M := momentum_pairing a vzero bs (gen_impulse n J x)). rewrite gen_impulse_pairing in M. fold a in M.
  rewrite rsum_zero in M by (intros i Hi; rewrite H by auto; ring). unfold vdot at 2 in M; cbn in M. lra.
Qed.
Lemma no_angular bs n J x : (forall a w i, (i < n)%nat -> mdotv (6 * length bs) J (rigid_field a w bs) i = 0) ->
  total_angular bs (gen_impulse n J x) = vzero.
Proof.
  intros H. apply vdot_self_zero. set (w := total_angular bs (gen_impulse n J x)).
  assert (M := momentum_pairing vzero w bs (gen_impulse n J x)). rewrite gen_impulse_pairing in M. fold w in M.
  rewrite rsum_zero in M by (intros i Hi; rewrite H by auto; ring). unfold vdot at 1 in M; cbn in M. lra.
Qed.
Lemma rigid_at a w e b p : bodies_indexed e -> In b (e_bodies e) ->
  velocity_at (rigid_field a w (e_bodies e)) b p = vadd a (vcross w p) /\ ang (rigid_field a w (e_bodies e)) b = w.
Proof.
  intros HI Hb. destruct (indexed_lt _ _ HI Hb) as [Hk _]. destruct (rigid_field_block a w _ _ _ Hk) as [E1 E2].
  unfold velocity_at, lin, ang. rewrite E1, E2. split; auto. destruct a, w, p, (b_r b); unfold point_velocity, vadd, vsub, vcross; cbn; f_equal; ring.
Qed.
Lemma contact_rigid e J a w i : bodies_indexed e -> contact_jacobian e = Some J -> (i < 4 * length (e_contacts e))%nat ->
  mdotv (6 * length (e_bodies e)) J (rigid_field a w (e_bodies e)) i = 0.
Proof.
  intros HI HJ Hi. assert (Hq : (i = 4 * (i / 4) + i mod 4)%nat) by (apply Nat.div_mod; lia).
  assert (Hm : (i mod 4 < 4)%nat) by (apply Nat.mod_upper_bound; lia). set (k := (i / 4)%nat) in *. set (r := (i mod 4)%nat) in *.
  destruct (nth_error (e_contacts e) k) as [cp|] eqn:Ek. 2:{ apply nth_error_None in Ek. lia. }
  destruct (contact_row _ _ _ _ HI HJ Ek) as (A & B & s & t & n & EA & EB & _ & H).
  apply find_body_spec in EA as [EA _]. apply find_body_spec in EB as [EB _].
  destruct (H (rigid_field a w (e_bodies e))) as (H0 & H1 & H2 & H3). destruct (rigid_at a w e A (c_p cp) HI EA) as [EA1 EA2]. destruct (rigid_at a w e B (c_p cp) HI EB) as [EB1 EB2].
  rewrite EA1, EB1 in *. rewrite EA2, EB2 in H3. rewrite Hq. clearbody r.
  assert (Z : forall d v, vdot d (vsub v v) = 0). { intros [? ? ?] [? ? ?]. unfold vdot, vsub; cbn; ring. }
  rewrite Z in *. destruct r as [|[|[|[|r]]]]; [rewrite Nat.add_0_r| | | |lia]; auto.
Qed.
Lemma hinge_rigid e J a w i : bodies_indexed e -> hinges_indexed e -> hinge_jacobian e = Some J -> (i < 5 * length (e_hinges e))%nat ->
  (w = vzero \/ forall h sp sc P C, In h (e_hinges e) -> h_sockets h = Some (sp, sc) -> find_body e (sk_body sp) = Some P ->
      find_body e (sk_body sc) = Some C -> anchor P sp = anchor C sc) ->
  mdotv (6 * length (e_bodies e)) J (rigid_field a w (e_bodies e)) i = 0.
Proof.
  intros HI HH HJ Hi HW. assert (Hq : (i = 5 * (i / 5) + i mod 5)%nat) by (apply Nat.div_mod; lia).
  assert (Hm : (i mod 5 < 5)%nat) by (apply Nat.mod_upper_bound; lia). set (k := (i / 5)%nat) in *. set (r := (i mod 5)%nat) in *.
  destruct (nth_error (e_hinges e) k) as [h|] eqn:Ek. 2:{ apply nth_error_None in Ek. lia. }
  destruct (hinge_row _ _ _ _ HI HH HJ Ek) as (sp & sc & P & C & t & b & n & Es & EA & EB & _ & H).
  assert (EA0 := EA). assert (EB0 := EB). apply find_body_spec in EA as [EA _]. apply find_body_spec in EB as [EB _].
  destruct (H (rigid_field a w (e_bodies e))) as (H0 & H1 & H2). destruct (rigid_at a w e P (anchor P sp) HI EA) as [EA1 EA2]. destruct (rigid_at a w e C (anchor C sc) HI EB) as [EB1 EB2].
  rewrite EA1, EB1 in H0. rewrite EA2, EB2 in *. rewrite Hq. clearbody r.
  assert (Z : forall d v, vdot d (vsub v v) = 0). { intros [? ? ?] [? ? ?]. unfold vdot, vsub; cbn; ring. } rewrite Z in *.
  assert (H00 : read3 (mdotv (6 * length (e_bodies e)) J (rigid_field a w (e_bodies e))) (5 * k) = vzero).
  { rewrite H0. destruct HW as [->|HW].
    - generalize (anchor P sp) (anchor C sc). intros [? ? ?] [? ? ?]. destruct a. unfold vsub, vadd, vcross, vzero; cbn. f_equal; ring.
    - rewrite (HW h sp sc P C); auto; [|eapply nth_error_In; eauto]. generalize (vadd a (vcross w (anchor C sc))). intros [? ? ?]. unfold vsub, vzero; cbn. f_equal; ring. }
  unfold read3 in H00. assert (X := f_equal vx H00). assert (Y := f_equal vy H00). assert (V := f_equal vz H00). cbn [vx vy vz vzero] in X, Y, V.
  destruct r as [|[|[|[|[|r]]]]]; [rewrite Nat.add_0_r| | | | |lia]; auto.
Qed.
