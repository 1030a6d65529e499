(** One time step, body by body. *)
From Verif Require Import Base QuatModel VecModel BvhModel GridModel VolModel ProxModel SolverModel SolverProofs
  QuatProofs RigidTypes CollModel StepModel StepProofs.
Open Scope R_scope.

(** the generalised impulse J^T x of a problem *)
Definition impulse (P : problem) (x : vec) : vec := fun l => rsum (pB P * pK P) (fun i => pJ P i l * x i).
Definition total_impulse (ps : list (problem * vec)) : vec := fun l => fold_right (fun px s => impulse (fst px) (snd px) l + s) 0 ps.

Lemma mdotv_plus N W f g i : mdotv N W (fun j => f j + g j) i = mdotv N W f i + mdotv N W g i.
Proof. unfold mdotv. rewrite <- rsum_plus. apply rsum_ext. intros; ring. Qed.
Lemma mdotv_scale N W c f i : mdotv N W (fun j => c * f j) i = c * mdotv N W f i.
Proof. unfold mdotv. rewrite <- rsum_scale. apply rsum_ext. intros; ring. Qed.
Lemma mdotv_zero N W i : mdotv N W (fun _ => 0) i = 0.
Proof. unfold mdotv. apply rsum_zero. intros; ring. Qed.
Lemma mdotv_ext N W f g i : (forall j, (j < N)%nat -> f j = g j) -> mdotv N W f i = mdotv N W g i.
Proof. intros H. unfold mdotv. apply rsum_ext. intros j Hj. rewrite H; auto. Qed.

Lemma WJTx_impulse P W x j : pWJT P = mat_WJT (pN P) W (pJ P) -> WJTx P x j = mdotv (pN P) W (impulse P x) j.
Proof.
  intros H. unfold WJTx, mdotv, impulse. rewrite H. unfold mat_WJT.
  rewrite (rsum_ext (pB P * pK P) _ (fun i => rsum (pN P) (fun l => W j l * pJ P i l * x i))).
  2:{ intros i _. rewrite Rmult_comm, <- rsum_scale. apply rsum_ext. intros; ring. }
  rewrite rsum_swap. apply rsum_ext. intros l _. rewrite <- rsum_scale. apply rsum_ext. intros; ring.
Qed.

Definition assembled (W : mat) (N : nat) (P : problem) : Prop := pN P = N /\ pWJT P = mat_WJT N W (pJ P).
Lemma delta_fold W N d0 ps : (forall P x, In (P, x) ps -> assembled W N P) -> forall j,
  fold_left (fun (d : vec) ps => fun j => d j + WJTx (fst ps) (snd ps) j) ps d0 j = d0 j + mdotv N W (total_impulse ps) j.
Proof.
  revert d0. induction ps as [|[P x] ps IH]; intros d0 H j; cbn [fold_left].
  - unfold total_impulse; cbn. rewrite mdotv_zero. ring.
  - rewrite IH by (intros; apply (H P0 x0); right; auto). cbn [fst snd].
    destruct (H P x (or_introl eq_refl)) as [HN HW]. subst N.
    rewrite (WJTx_impulse P W) by auto. unfold total_impulse at 2; cbn [fold_right fst snd].
    rewrite (mdotv_plus _ _ (impulse P x) (total_impulse ps)). ring.
Qed.

Lemma read3_plus x y o : read3 (fun j => x j + y j) o = vadd (read3 x o) (read3 y o).
Proof. reflexivity. Qed.
Lemma read3_scale c y o : read3 (fun j => c * y j) o = vscale c (read3 y o).
Proof. reflexivity. Qed.

(** the static part of a body *)
Definition same_static (b b' : body) : Prop :=
  b_name b' = b_name b /\ b_idx b' = b_idx b /\ b_mass b' = b_mass b /\ b_inertia b' = b_inertia b /\
  b_shape b' = b_shape b /\ b_fixed b' = b_fixed b /\ b_forces b' = b_forces b /\ b_material b' = b_material b.
Definition same_dynamic (b b' : body) : Prop := b_r b' = b_r b /\ b_q b' = b_q b /\ b_v b' = b_v b /\ b_w b' = b_w b.

(** a collision detection that only changes contacts and bounding volumes *)
Definition cd_ok (cd : engine -> option engine) : Prop := forall e e', cd e = Some e' ->
  Forall2 bvh_only (e_bodies e) (e_bodies e') /\ e_hinges e' = e_hinges e /\ e_forces e' = e_forces e /\
  e_shapes e' = e_shapes e /\ e_lib e' = e_lib e /\ e_params e' = e_params e /\ e_stepper e' = e_stepper e.
Lemma run_cd_ok : cd_ok run_collision_detection.
Proof. intros e e'. apply cd_bvh_only. Qed.

(** what a step computed: the state it started from, the problems it posed and their solutions *)
Record trace := mkTrace { t_state : state; t_engine : engine; t_cprobs : list problem; t_hprobs : list problem; t_sols : list vec;
                          t_post : option vec (* delta_r of post-stabilisation *) }.
Definition t_pairs (t : trace) := combine (t_cprobs t ++ t_hprobs t) (t_sols t).

Lemma contacts_assembled dt st e P : contacts_initialize dt st e = Some P -> assembled (s_W st) (6 * length (e_bodies e)) P.
Proof.
  unfold contacts_initialize. destruct (contact_jacobian e); [|discriminate]. destruct (contact_error _ _ _ _); [|discriminate].
  destruct (restitution_vector e); [|discriminate]. destruct (friction_vector e); [|discriminate].
  intros H. injection H; intros <-. split; reflexivity.
Qed.
Lemma hinges_assembled dt st e P : hinges_initialize dt st e = Some P -> assembled (s_W st) (6 * length (e_bodies e)) P.
Proof.
  unfold hinges_initialize. destruct (hinge_jacobian e); [|discriminate]. destruct (hinge_error _ _); [|discriminate].
  intros H. injection H; intros <-. split; reflexivity.
Qed.

(** the facts about a completed step *)
Definition step_facts (cd : engine -> option engine) (solver : params -> list problem -> list vec) (dt : R) (e0 e' : engine) (t : trace) : Prop :=
  let st := t_state t in let e := t_engine t in
  copy_from_engine e0 = Some st /\ cd e0 = Some e /\
  (e_contacts e = [] -> t_cprobs t = []) /\ (e_contacts e <> [] -> exists P, contacts_initialize dt st e = Some P /\ t_cprobs t = [P]) /\
  (e_hinges e = [] -> t_hprobs t = []) /\ (e_hinges e <> [] -> exists P, hinges_initialize dt st e = Some P /\ t_hprobs t = [P]) /\
  (t_cprobs t ++ t_hprobs t <> [] -> t_sols t = solver (e_params e) (t_cprobs t ++ t_hprobs t)) /\
  let N := (6 * length (e_bodies e))%nat in
  let u := fun j => s_u st j + (dt * s_duext st j + mdotv N (s_W st) (total_impulse (t_pairs t)) j) in
  let x := position_update dt (e_bodies e) u (s_x st) in
  (p_use_post (e_params e) = false \/ t_cprobs t = [] -> t_post t = None) /\
  (forall d, t_post t = Some d -> exists p, forall j, d j = mdotv N (s_W st) p j) /\
  e' = set_bodies e (copy_to_bodies (match t_post t with Some d => position_update 1 (e_bodies e) d x | None => x end) u (e_bodies e)).

Lemma position_update_ext dt bs u u' x : (forall j, u j = u' j) -> position_update dt bs u x = position_update dt bs u' x.
Proof.
  intros H. unfold position_update. revert x. induction (enum bs) as [|[k b] l IH]; intros x; cbn [fold_left]; auto.
  rewrite IH. unfold read3. rewrite !H. reflexivity.
Qed.
Lemma copy_ext x u u' bs : (forall j, u j = u' j) -> copy_to_bodies x u bs = copy_to_bodies x u' bs.
Proof. intros H. unfold copy_to_bodies. apply map_ext. intros [k b]. unfold read3. rewrite !H. reflexivity. Qed.

Lemma step_decompose solver cd dt e0 e' : cd_ok cd -> step_with solver cd dt e0 = Some e' -> exists t, step_facts cd solver dt e0 e' t.
Proof.
  intros Hcd H. unfold step_with in H.
  destruct (copy_from_engine e0) as [st|] eqn:Est; [|discriminate].
  destruct (cd e0) as [e|] eqn:Ecd; [|discriminate].
  match type of H with (match ?a with Some _ => _ | None => _ end) = _ => destruct a as [cprobs|] eqn:Ec; [|discriminate] end.
  match type of H with (match ?a with Some _ => _ | None => _ end) = _ => destruct a as [hprobs|] eqn:Eh; [|discriminate] end.
  cbv zeta in H.
  set (sols := match cprobs ++ hprobs with [] => [] | _ :: _ => solver (e_params e) (cprobs ++ hprobs) end) in *.
  assert (Hc1 : e_contacts e = [] -> cprobs = []).
  { intros E0. rewrite E0 in Ec. congruence. }
  assert (Hc2 : e_contacts e <> [] -> exists P, contacts_initialize dt st e = Some P /\ cprobs = [P]).
  { intros E0. destruct (e_contacts e); [congruence|]. destruct (contacts_initialize dt st e) as [P|] eqn:EP; [|discriminate].
    exists P. split; auto. congruence. }
  assert (Hh1 : e_hinges e = [] -> hprobs = []).
  { intros E0. rewrite E0 in Eh. congruence. }
  assert (Hh2 : e_hinges e <> [] -> exists P, hinges_initialize dt st e = Some P /\ hprobs = [P]).
  { intros E0. destruct (e_hinges e); [congruence|]. destruct (hinges_initialize dt st e) as [P|] eqn:EP; [|discriminate].
    exists P. split; auto. congruence. }
  set (N := (6 * length (e_bodies e))%nat).
  assert (Has : forall P, In P (cprobs ++ hprobs) -> assembled (s_W st) N P).
  { intros P HP. apply in_app_or in HP as [HP|HP].
    - destruct (e_contacts e) eqn:E0; [rewrite Hc1 in HP by auto; destruct HP|].
      destruct Hc2 as (P' & E1 & ->); [congruence|]. destruct HP as [<-|[]]. apply (contacts_assembled dt st e); auto.
    - destruct (e_hinges e) eqn:E0; [rewrite Hh1 in HP by auto; destruct HP|].
      destruct Hh2 as (P' & E1 & ->); [congruence|]. destruct HP as [<-|[]]. apply (hinges_assembled dt st e); auto. }
  set (pairs := combine (cprobs ++ hprobs) sols) in *.
  set (u := fun j => s_u st j + (dt * s_duext st j + mdotv N (s_W st) (total_impulse pairs) j)).
  assert (Hu : forall j, s_u st j + fold_left (fun (d : nat -> R) (ps : problem * vec) (j0 : nat) => d j0 + WJTx (fst ps) (snd ps) j0)
              pairs (fun j0 : nat => dt * s_duext st j0) j = u j).
  { intros j. rewrite (delta_fold (s_W st) N). reflexivity. intros P x HP. apply Has. apply in_combine_l in HP. auto. }
  rewrite (position_update_ext dt (e_bodies e) _ u) in H by (apply Hu).
  rewrite (copy_ext _ _ u) in H by (apply Hu).
  set (x := position_update dt (e_bodies e) u (s_x st)) in *.
  set (post := match cprobs with
      | [C] => if p_use_post (e_params e) then
          let Q := post_problem (e_params e) (e_contacts e) C in
          if any_nonzero (4 * pK Q) (pb Q) then
            match solver (e_params e) [Q] with sol :: _ => Some (WJTx Q sol) | [] => None end
          else None else None
      | _ => None end).
  exists (mkTrace st e cprobs hprobs sols post).
  unfold step_facts. cbn [t_state t_engine t_cprobs t_hprobs t_sols t_post t_pairs]. fold pairs. fold N. fold u. fold x.
  split; [assumption|]. split; [assumption|]. split; [assumption|]. split; [assumption|]. split; [assumption|]. split; [assumption|].
  split. { intros Hne. unfold sols. destruct (cprobs ++ hprobs); congruence. }
  split. { intros [D|D]; unfold post; [rewrite D; destruct cprobs as [|? [|]]; reflexivity|rewrite D; reflexivity]. }
  split.
  { intros d Hd. unfold post in Hd. destruct cprobs as [|C [|]]; try discriminate. destruct (p_use_post _); [|discriminate].
    cbv zeta in Hd. destruct (any_nonzero _ _); [|discriminate]. destruct (solver (e_params e) [post_problem (e_params e) (e_contacts e) C]) as [|sol ?]; [discriminate Hd|].
    assert (AC := Has C ltac:(apply in_or_app; left; left; reflexivity)). destruct AC as [AN AW].
    exists (impulse (post_problem (e_params e) (e_contacts e) C) sol). intros j. assert (d = WJTx (post_problem (e_params e) (e_contacts e) C) sol) by congruence. subst d.
    rewrite (WJTx_impulse _ (s_W st)); cbn; rewrite AN; auto. }
  injection H; intros <-. f_equal. unfold post. destruct cprobs as [|C [|]]; try reflexivity.
  destruct (p_use_post _); try reflexivity. destruct (any_nonzero _ _); try reflexivity. destruct (solver (e_params e) [post_problem (e_params e) (e_contacts e) C]) as [|sol ?]; reflexivity.
Qed.

Lemma copy_from_eq e st : copy_from_engine e = Some st ->
  s_x st = get_position_vector (e_bodies e) /\ s_u st = get_velocity_vector (e_bodies e) /\
  compute_inverse_mass_matrix (get_position_vector (e_bodies e)) (e_bodies e) = Some (s_W st) /\
  s_duext st = mdotv (6 * length (e_bodies e)) (s_W st)
     (compute_total_external_forces (get_position_vector (e_bodies e)) (get_velocity_vector (e_bodies e)) (e_bodies e)).
Proof.
  unfold copy_from_engine. destruct (compute_inverse_mass_matrix _ _) as [W|] eqn:E; [|discriminate].
  intros H. injection H; intros <-. cbn. auto.
Qed.

(** inverse inertia of a free body in world space *)
Definition inv_inertia_world (b : body) : mat3 :=
  update_inertia_tensor (q_to_matrix (b_q b)) (mkV (1 / vx (b_inertia b)) (1 / vy (b_inertia b)) (1 / vz (b_inertia b))).
(** total external force and torque on a free body, from its own fields *)
Definition ext_force (b : body) : vec3 * vec3 :=
  fold_left (fun ft f => let '(Fi, Ti) := force_compute f (b_mass b) (b_v b) (b_w b) in (vadd (fst ft) Fi, vadd (snd ft) Ti))
    (b_forces b) (vzero, vopp (vcross (b_w b) (mvec (update_inertia_tensor (q_to_matrix (b_q b)) (b_inertia b)) (b_w b)))).

Lemma body_force_ext bs k b : nth_error bs k = Some b ->
  body_force (get_position_vector bs) (get_velocity_vector bs) k b = ext_force b.
Proof.
  intros H. unfold body_force, ext_force. destruct (position_vector_block _ _ _ H) as [_ ->]. destruct (velocity_vector_block _ _ _ H) as [-> ->]. reflexivity.
Qed.

Lemma mdiag_scale m v : mvec (mdiag (mkV m m m)) v = vscale m v.
Proof. vring. Qed.

(** the state of every body after a step *)
Lemma step_body solver cd dt e0 e' t k b : cd_ok cd -> step_facts cd solver dt e0 e' t -> nth_error (e_bodies e0) k = Some b ->
  exists b', nth_error (e_bodies e') k = Some b' /\ same_static b b' /\
    (b_fixed b = true -> same_dynamic b b') /\
    (b_fixed b = false ->
       b_mass b <> 0 /\ vx (b_inertia b) <> 0 /\ vy (b_inertia b) <> 0 /\ vz (b_inertia b) <> 0 /\
       b_v b' = vadd (b_v b) (vscale (1 / b_mass b) (vadd (vscale dt (fst (ext_force b))) (read3 (total_impulse (t_pairs t)) (6 * k)))) /\
       b_w b' = vadd (b_w b) (mvec (inv_inertia_world b) (vadd (vscale dt (snd (ext_force b))) (read3 (total_impulse (t_pairs t)) (6 * k + 3)))) /\
       is_unit (b_q b') /\
       (t_post t = None -> (b_r b', b_q b') = moved dt (b_v b') (b_w b') (b_r b) (b_q b))).
Proof.
  intros Hcd HF Hk. destruct HF as (Hst & Hc & _ & _ & _ & _ & _ & _ & Hpost & He').
  set (st := t_state t) in *. set (e := t_engine t) in *.
  destruct (Hcd _ _ Hc) as (HB & _). destruct (copy_from_eq _ _ Hst) as (Ex & Eu & EW & Ed).
  destruct (Forall2_nth _ _ _ _ _ HB Hk) as (b1 & Hk1 & [tr ->]).
  assert (HL := Forall2_len _ _ _ HB). rewrite <- HL in *.
  set (bs := e_bodies e0) in *.
  set (u := fun j => s_u st j + (dt * s_duext st j + mdotv (6 * length bs) (s_W st) (total_impulse (t_pairs t)) j)) in *.
  set (x := position_update dt (e_bodies e) u (s_x st)) in *.
  set (f := compute_total_external_forces (get_position_vector bs) (get_velocity_vector bs) bs) in *.
  set (x' := match t_post t with Some d => position_update 1 (e_bodies e) d x | None => x end) in *.
  subst e'. cbn [e_bodies set_bodies]. rewrite copy_nth, Hk1. cbn [option_map]. eexists. split; [reflexivity|].
  split. { unfold same_static; cbn; auto 10. }
  destruct (velocity_vector_block _ _ _ Hk) as [Ev Ew]. destruct (position_vector_block _ _ _ Hk) as [Er Eq].
  (* velocity *)
  destruct (W_dot _ _ _ _ _ f EW Hk) as (M & I & HMI & D1 & D2).
  destruct (W_dot _ _ _ _ _ (total_impulse (t_pairs t)) EW Hk) as (M' & I' & HMI' & D3 & D4).
  assert (M' = M) by congruence. assert (I' = I) by congruence. subst M' I'.
  assert (U1 : read3 u (6 * k) = vadd (b_v b) (mvec M (vadd (vscale dt (read3 f (6 * k))) (read3 (total_impulse (t_pairs t)) (6 * k))))).
  { unfold u. rewrite read3_plus, read3_plus, read3_scale, Eu, Ev, Ed. fold bs f. rewrite D1, D3. f_equal.
    generalize (read3 f (6 * k)) (read3 (total_impulse (t_pairs t)) (6 * k)). vring. }
  assert (U2 : read3 u (6 * k + 3) = vadd (b_w b) (mvec I (vadd (vscale dt (read3 f (6 * k + 3))) (read3 (total_impulse (t_pairs t)) (6 * k + 3))))).
  { unfold u. rewrite read3_plus, read3_plus, read3_scale, Eu, Ew, Ed. fold bs f. rewrite D2, D4. f_equal.
    generalize (read3 f (6 * k + 3)) (read3 (total_impulse (t_pairs t)) (6 * k + 3)). vring. }
  cbn [b_r b_q b_v b_w with_pose with_vel].
  destruct (position_update_block dt (e_bodies e) u (s_x st) k _ Hk1) as [PF PM]. cbn [b_fixed with_bvh] in PF, PM. fold x in PF, PM.
  split.
  - intros Hfix. unfold inverse_mass_blocks in HMI. rewrite Hfix in HMI. assert (M = mzero) by congruence. assert (I = mzero) by congruence. subst M I.
    destruct (PF Hfix) as [P1 P2].
    assert (X' : read3 x' (7 * k) = read3 x (7 * k) /\ read4 x' (7 * k + 3) = read4 x (7 * k + 3)).
    { unfold x'. destruct (t_post t) as [d|]; [|split; reflexivity].
      destruct (position_update_block 1 (e_bodies e) d x k _ Hk1) as [PF' _]. apply PF'. exact Hfix. }
    destruct X' as [X1 X2]. unfold same_dynamic. cbn [b_r b_q b_v b_w with_pose with_vel].
    rewrite X1, X2, P1, P2, U1, U2, Ex. fold bs. rewrite Er, Eq. repeat split; auto.
    + rewrite <- (vec3_eq (vadd (b_v b) vzero) (b_v b)) at 2; cbn; try ring. f_equal. generalize (vadd (vscale dt (read3 f (6 * k))) (read3 (total_impulse (t_pairs t)) (6 * k))). vring.
    + rewrite <- (vec3_eq (vadd (b_w b) vzero) (b_w b)) at 2; cbn; try ring. f_equal. generalize (vadd (vscale dt (read3 f (6 * k + 3))) (read3 (total_impulse (t_pairs t)) (6 * k + 3))). vring.
  - intros Hfree. unfold inverse_mass_blocks in HMI. rewrite Hfree in HMI.
    destruct (Reqb_spec (b_mass b) 0) as [?|Hm]; [discriminate|].
    destruct (Reqb_spec (vx (b_inertia b)) 0) as [?|Hx]; [discriminate|].
    destruct (Reqb_spec (vy (b_inertia b)) 0) as [?|Hy]; [discriminate|].
    destruct (Reqb_spec (vz (b_inertia b)) 0) as [?|Hz]; [discriminate|]. cbn [orb] in HMI.
    rewrite Eq in HMI. fold (inv_inertia_world b) in HMI.
    assert (EM : M = mdiag (mkV (1 / b_mass b) (1 / b_mass b) (1 / b_mass b))) by congruence.
    assert (EI : I = inv_inertia_world b) by congruence. subst M I.
    assert (FB := external_force_block (get_position_vector bs) (get_velocity_vector bs) bs k b Hk Hfree). cbv zeta in FB. fold f in FB.
    rewrite (body_force_ext bs k b Hk) in FB. rewrite <- FB. cbn [fst snd].
    rewrite mdiag_scale in U1. repeat (split; [assumption|]).
    assert (PM' := PM Hfree). rewrite Ex in PM'. fold bs in PM'. rewrite Er, Eq in PM'.
    split.
    + unfold x'. destruct (t_post t) as [d|].
      * destruct (position_update_block 1 (e_bodies e) d x k _ Hk1) as [_ PM2]. specialize (PM2 Hfree).
        assert (Q2 := f_equal snd PM2). cbn [snd moved] in Q2. rewrite Q2. apply q_unit_is_unit.
      * assert (Q2 := f_equal snd PM'). cbn [snd moved] in Q2. rewrite Q2. apply q_unit_is_unit.
    + intros Hnone. unfold x'. rewrite Hnone. exact PM'.
Qed.
