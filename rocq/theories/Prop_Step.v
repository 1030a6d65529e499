(** Time stepping of the rigid body simulator: C48, C49, C50, C55, C64, C75. *)
From Verif Require Import Base QuatModel VecModel BvhModel GridModel GridProofs VolModel ProxModel SolverModel SolverProofs
  QuatProofs RotProofs BvhSpec RigidTypes RigidSpec CollModel StepModel StepProofs StepProofs2 Prop_Geometry Prop_Grid ReadySpec ReadyProofs.
Open Scope R_scope.

(** * C48 *)
Lemma sim_zero {E} (stp : R -> E -> option E) ts fuel e : sim_loop stp ts fuel 0 e = Some (Some (e, [])).
Proof. destruct fuel; cbn; destruct (Reqb_spec 0 0); auto; lra. Qed.
Lemma sim_steps {E} (stp : R -> E -> option E) ts e0 :
  (forall dt e e', stp dt e = Some e' -> ts e' = ts e) -> 0 < ts e0 ->
  forall n T e fuel, ts e = ts e0 -> 0 < T -> T <= INR n * ts e0 -> (n <= fuel)%nat ->
  sim_loop stp ts fuel T e = Some None \/
  exists e' k last, sim_loop stp ts fuel T e = Some (Some (e', repeat (ts e0) k ++ [last])) /\
    0 < last <= ts e0 /\ INR k * ts e0 + last = T /\ run_steps stp (repeat (ts e0) k ++ [last]) e = Some e' /\ (k < n)%nat.
Proof.
  intros Hts Hpos. induction n as [|n IH]; intros T e fuel He HT Hn Hf; [cbn in Hn; lra|].
  destruct fuel as [|fuel]; [lia|]. cbn [sim_loop].
  destruct (Reqb_spec T 0); [lra|]. rewrite He.
  destruct (stp (Rmin T (ts e0)) e) as [e1|] eqn:E1; [|left; reflexivity].
  destruct (Rle_dec T (ts e0)) as [Hle|Hgt].
  - rewrite Rmin_left in * by auto. rewrite Rminus_diag_eq by auto. rewrite sim_zero.
    right. exists e1, 0%nat, T. cbn. rewrite E1. repeat split; auto; try lra. lia.
  - rewrite Rmin_right in * by lra. rewrite S_INR in Hn.
    destruct (IH (T - ts e0) e1 fuel) as [H|(e' & k & last & H & Hl & Hs & Hr & Hk)]; try lia; try lra.
    { rewrite (Hts _ _ _ E1). auto. }
    + left. rewrite H. reflexivity.
    + right. exists e', (S k), last. rewrite H. cbn [repeat app]. split; [reflexivity|]. split; [auto|].
      split; [rewrite S_INR; lra|]. cbn [run_steps]. rewrite E1. split; auto. lia.
Qed.
Lemma step_params solver cd dt e e' : cd_ok cd -> step_with solver cd dt e = Some e' -> e_params e' = e_params e /\ e_stepper e' = e_stepper e.
Proof.
  intros Hcd H. destruct (step_decompose _ _ _ _ _ Hcd H) as (t & HF). destruct HF as (_ & Hc & _ & _ & _ & _ & _ & _ & _ & He').
  destruct (Hcd _ _ Hc) as (_ & _ & _ & _ & _ & HP & HS). rewrite He'. cbn. auto.
Qed.

(** simulate raises for a non-positive duration and for a missing stepper *)
Theorem C48_rejects fuel T e : T <= 0 \/ e_stepper e = false -> simulate fuel T e = SimRaises.
Proof.
  intros H. unfold simulate, simulate_with. destruct (Rleb_spec T 0); auto. destruct H as [H|H]; [lra|]. rewrite H. reflexivity.
Qed.

(** simulate terminates; the step sizes used are time_step, ..., time_step, last with 0 < last <= time_step and
    they add up to T; the engine returned is the result of those steps.  Otherwise a step raised. *)
Theorem C48_simulate T e : 0 < T -> 0 < p_time_step (e_params e) -> e_stepper e = true ->
  exists n, forall fuel, (n <= fuel)%nat ->
    simulate fuel T e = SimRaises \/
    exists e' k last, simulate fuel T e = SimDone e' (repeat (p_time_step (e_params e)) k ++ [last]) /\
      0 < last <= p_time_step (e_params e) /\
      lsum (repeat (p_time_step (e_params e)) k ++ [last]) = T /\
      run_steps step (repeat (p_time_step (e_params e)) k ++ [last]) e = Some e'.
Proof.
  intros HT Hts Hst. set (ts := p_time_step (e_params e)) in *.
  set (n := Z.to_nat (up (T / ts))).
  assert (Hn : T <= INR n * ts).
  { destruct (archimed (T / ts)) as [H1 _]. assert (0 < T / ts) by (apply Rdiv_lt_0_compat; auto).
    assert (Hz : (0 < up (T / ts))%Z) by (apply lt_IZR; lra).
    unfold n. rewrite INR_IZR_INZ, Z2Nat.id by lia. apply Rmult_le_reg_r with (/ ts); [apply Rinv_0_lt_compat; auto|].
    rewrite Rmult_assoc, Rinv_r, Rmult_1_r by lra. unfold Rdiv in H1. lra. }
  exists n. intros fuel Hf. unfold simulate, simulate_with. destruct (Rleb_spec T 0); [lra|]. rewrite Hst. cbn [negb].
  assert (Hpar : forall dt e1 e2, step dt e1 = Some e2 -> p_time_step (e_params e2) = p_time_step (e_params e1)).
  { intros dt e1 e2 H. rewrite (proj1 (step_params _ _ dt e1 e2 run_cd_ok H)). reflexivity. }
  destruct (sim_steps step (fun e => p_time_step (e_params e)) e Hpar Hts n T e fuel eq_refl HT Hn Hf)
    as [H|(e' & k & last & H & Hl & Hs & Hr & _)].
  - left. rewrite H. reflexivity.
  - cbv beta in H, Hl, Hs, Hr. fold ts in H, Hl, Hs, Hr. right. exists e', k, last. rewrite H. split; [reflexivity|]. split; [auto|]. split; [|auto].
    rewrite <- Hs. generalize ts. clear. intros ts. induction k; cbn [repeat app lsum fold_right]; [cbn; lra|].
    unfold lsum in *. rewrite IHk, S_INR. lra.
Qed.

(** with a non-positive time_step the call never returns *)
Theorem C48_nonpositive_step T e : 0 < T -> p_time_step (e_params e) <= 0 -> forall fuel e' dts, simulate fuel T e <> SimDone e' dts.
Proof.
  intros HT Hts fuel e' dts. unfold simulate, simulate_with. destruct (Rleb_spec T 0); [lra|]. destruct (negb _); [discriminate|].
  enough (H : forall fuel T e, 0 < T -> p_time_step (e_params e) <= 0 -> forall r, sim_loop step (fun e => p_time_step (e_params e)) fuel T e <> Some (Some r)).
  { specialize (H fuel T e HT Hts). destruct (sim_loop _ _ _ _ _) as [[[e2 d2]|]|]; try discriminate. exfalso; apply (H (e2, d2)); reflexivity. }
  clear. induction fuel as [|fuel IH]; intros T e HT Hts r; cbn [sim_loop]; destruct (Reqb_spec T 0); try lra; try discriminate.
  destruct (step _ e) as [e1|] eqn:E1; [|discriminate]. rewrite Rmin_right by lra.
  destruct (step_params _ _ _ _ _ run_cd_ok E1) as [HP _].
  specialize (IH (T - p_time_step (e_params e)) e1 ltac:(lra) ltac:(rewrite HP; auto)).
  destruct (sim_loop _ _ _ _ _) as [[[e2 d2]|]|]; try discriminate. exfalso; apply (IH (e2, d2)); reflexivity.
Qed.

(** * C49 *)
(** one step, whatever the solver computes and whatever contacts the collision detection finds *)
Theorem C49_fixed_step solver cd dt e e' : cd_ok cd -> step_with solver cd dt e = Some e' ->
  length (e_bodies e') = length (e_bodies e) /\
  forall k b, nth_error (e_bodies e) k = Some b -> b_fixed b = true ->
  exists b', nth_error (e_bodies e') k = Some b' /\ b_name b' = b_name b /\ b_fixed b' = true /\ same_motion b b'.
Proof.
  intros Hcd H. destruct (step_decompose _ _ _ _ _ Hcd H) as (t & HF). split.
  - destruct HF as (_ & Hc & _ & _ & _ & _ & _ & _ & _ & He'). rewrite He'. cbn. unfold copy_to_bodies. rewrite map_length, enum_length.
    symmetry. apply (Forall2_len bvh_only), (Hcd _ _ Hc).
  - intros k b Hk Hf. destruct (step_body _ _ _ _ _ _ _ _ Hcd HF Hk) as (b' & Hk' & HS & HD & _).
    exists b'. destruct HS as (Hn & _ & _ & _ & _ & Hfx & _). rewrite Hfx. repeat split; auto; apply HD; auto.
Qed.
Lemma run_steps_inv {E} (stp : R -> E -> option E) (P : E -> E -> Prop) : (forall e, P e e) -> (forall a b c, P a b -> P b c -> P a c) ->
  (forall dt e e', stp dt e = Some e' -> P e e') -> forall dts e e', run_steps stp dts e = Some e' -> P e e'.
Proof.
  intros Hr Ht Hs dts. induction dts as [|dt dts IH]; intros e e' H; cbn in H; [injection H as <-; auto|].
  destruct (stp dt e) as [e1|] eqn:E1; [|discriminate]. apply (Ht _ e1); eauto.
Qed.
(** any number of steps of any sizes *)
Theorem C49_fixed_steps dts e e' k b : run_steps step dts e = Some e' -> nth_error (e_bodies e) k = Some b -> b_fixed b = true ->
  exists b', nth_error (e_bodies e') k = Some b' /\ b_name b' = b_name b /\ b_fixed b' = true /\ same_motion b b'.
Proof.
  intros H Hk Hf. revert k b Hk Hf.
  apply (run_steps_inv step (fun e e' => forall k b, nth_error (e_bodies e) k = Some b -> b_fixed b = true ->
    exists b', nth_error (e_bodies e') k = Some b' /\ b_name b' = b_name b /\ b_fixed b' = true /\ same_motion b b')) with (dts := dts); auto.
  - intros e1 k b Hk Hf. exists b. repeat split; auto.
  - intros a b0 c H1 H2 k b Hk Hf. destruct (H1 k b Hk Hf) as (b1 & A1 & A2 & A3 & A4 & A5 & A6 & A7).
    destruct (H2 k b1 A1 A3) as (b2 & B1 & B2 & B3 & B4 & B5 & B6 & B7). exists b2. unfold same_motion. repeat split; congruence.
  - intros dt e1 e2 HS. apply (C49_fixed_step _ _ _ _ _ run_cd_ok HS).
Qed.
Theorem C49_fixed_simulate fuel T e e' dts k b : simulate fuel T e = SimDone e' dts -> nth_error (e_bodies e) k = Some b -> b_fixed b = true ->
  exists b', nth_error (e_bodies e') k = Some b' /\ b_name b' = b_name b /\ b_fixed b' = true /\ same_motion b b'.
Proof.
  intros H Hk Hf. unfold simulate, simulate_with in H. destruct (Rleb T 0); [discriminate|]. destruct (negb _); [discriminate|].
  destruct (sim_loop _ _ _ _ _) as [[[e2 d2]|]|] eqn:ES; try discriminate. assert (e2 = e') by congruence. subst e2.
  apply (C49_fixed_steps d2 e e' k b); auto.
  clear -ES. revert T e d2 ES. induction fuel as [|fuel IH]; intros T e d2 ES; cbn in ES.
  - destruct (Reqb T 0); [|discriminate]. assert (e = e') by congruence. assert ([] = d2) by congruence. subst. reflexivity.
  - destruct (Reqb T 0). { assert (e = e') by congruence. assert ([] = d2) by congruence. subst. reflexivity. }
    destruct (step _ e) as [e1|] eqn:E1; [|discriminate]. destruct (sim_loop _ _ _ _ _) as [[[e3 d3]|]|] eqn:E2; try discriminate.
    assert (e3 = e') by congruence. subst e3. injection ES as <-. cbn. rewrite E1. eapply IH. exact E2.
Qed.

(** * C50 *)
Theorem C50_unit_step solver cd dt e e' k b : cd_ok cd -> step_with solver cd dt e = Some e' -> nth_error (e_bodies e) k = Some b -> b_fixed b = false ->
  exists b', nth_error (e_bodies e') k = Some b' /\ is_unit (b_q b').
Proof.
  intros Hcd H Hk Hf. destruct (step_decompose _ _ _ _ _ Hcd H) as (t & HF).
  destruct (step_body _ _ _ _ _ _ _ _ Hcd HF Hk) as (b' & Hk' & _ & _ & HD). exists b'. split; auto. apply HD; auto.
Qed.
(** if all orientations are unit quaternions before, they are after any number of steps *)
Theorem C50_unit_steps dts e e' : run_steps step dts e = Some e' -> Forall (fun b => is_unit (b_q b)) (e_bodies e) ->
  Forall (fun b => is_unit (b_q b)) (e_bodies e').
Proof.
  apply (run_steps_inv step (fun e e' => Forall (fun b => is_unit (b_q b)) (e_bodies e) -> Forall (fun b => is_unit (b_q b)) (e_bodies e'))); auto.
  intros dt e1 e2 H HU. apply Forall_forall. intros b' Hb'. apply In_nth_error in Hb' as [k Hk'].
  destruct (C49_fixed_step _ _ _ _ _ run_cd_ok H) as [HL HFx].
  destruct (nth_error (e_bodies e1) k) as [b|] eqn:Hk. 2:{ apply nth_error_None in Hk. assert (k < length (e_bodies e2))%nat by (apply nth_error_Some; congruence). lia. }
  destruct (b_fixed b) eqn:Efx.
  - destruct (HFx k b Hk Efx) as (b2 & Hk2 & _ & _ & HM). assert (b2 = b') by congruence. subst b2. destruct HM as (_ & -> & _).
    rewrite Forall_forall in HU. apply HU. eapply nth_error_In; eauto.
  - destruct (C50_unit_step _ _ _ _ _ _ _ run_cd_ok H Hk Efx) as (b2 & Hk2 & HQ). congruence.
Qed.

Lemma vnorm_sq v : vnorm v * vnorm v = vdot v v.
Proof. unfold vnorm. apply sqrt_sqrt. unfold vdot. nra. Qed.
Lemma vnorm_pos v : v <> vzero -> 0 < vnorm v.
Proof.
  intros H. destruct (Rle_lt_or_eq_dec 0 (vnorm v)) as [?|E]; [unfold vnorm; apply sqrt_pos|auto|].
  exfalso. apply H. assert (D := vnorm_sq v). rewrite <- E in D. unfold vdot in D. destruct v as [x y z]; cbn in D.
  apply vec3_eq; cbn; nra.
Qed.
(** the orientation after moving for dt with spin w: a rotation about w by 2 atan(dt |w| / 2) *)
Lemma moved_rotation dt v w r q : is_unit q -> w <> vzero -> snd (moved dt v w r q) = q_prod (q_Ru (2 * atan (dt * vnorm w / 2)) w) q.
Proof.
  intros Hq Hw. cbn [snd moved]. set (t := dt * vnorm w / 2). assert (Hn := vnorm_pos w Hw). assert (Hs := vnorm_sq w).
  assert (H1 : 0 < sqrt (1 + t * t)) by (apply sqrt_lt_R0; nra).
  assert (Hc : cos (atan t) = 1 / sqrt (1 + t * t)). { rewrite cos_atan. unfold Rsqr. reflexivity. }
  assert (Hsn : sin (atan t) = t / sqrt (1 + t * t)). { rewrite sin_atan. unfold Rsqr. reflexivity. }
  assert (HN : qnorm (qadd q (qscale (1 / 2) (qscale dt (q_prod (q_from_vector3 w) q)))) = sqrt (1 + t * t)).
  { unfold qnorm. f_equal. unfold is_unit in Hq. transitivity (qdot q q * (1 + t * t)); [|rewrite Hq; ring].
    replace (t * t) with (dt * dt * (vdot w w) / 4) by (unfold t; rewrite <- Hs; field).
    clear. destruct q as [s x y z], w as [a b c]. unfold qdot, qadd, qscale. qunf. field. }
  unfold q_unit. rewrite HN. destruct (Rltb_spec 0 (sqrt (1 + t * t))); [|lra].
  unfold q_Ru. replace (2 * atan t / 2) with (atan t) by field. rewrite Hc, Hsn. unfold t. 
  set (L := sqrt _) in *. set (m := vnorm w) in *. clearbody L m. clear - H1 Hn.
  destruct q as [s x y z], w as [a b c]. unfold qadd, qscale, vdiv. qunf. f_equal; field; lra.
Qed.
(** without post-stabilisation a free body with orientation q ends with q rotated about its new spin w by the
    angle 2 atan(dt |w| / 2), and keeps q if w = 0 *)
Theorem C50_rotation solver cd dt e e' k b : cd_ok cd -> step_with solver cd dt e = Some e' -> p_use_post (e_params e) = false ->
  nth_error (e_bodies e) k = Some b -> b_fixed b = false -> is_unit (b_q b) ->
  exists b', nth_error (e_bodies e') k = Some b' /\
    b_r b' = vadd (b_r b) (vscale dt (b_v b')) /\
    (b_w b' = vzero -> b_q b' = b_q b) /\
    (b_w b' <> vzero -> b_q b' = q_prod (q_Ru (2 * atan (dt * vnorm (b_w b') / 2)) (b_w b')) (b_q b)).
Proof.
  intros Hcd H Hpost Hk Hf Hq. destruct (step_decompose _ _ _ _ _ Hcd H) as (t & HF).
  destruct (step_body _ _ _ _ _ _ _ _ Hcd HF Hk) as (b' & Hk' & _ & _ & HD). exists b'. split; auto.
  destruct (HD Hf) as (_ & _ & _ & _ & _ & _ & HU & HM).
  assert (HN : t_post t = None). { destruct HF as (_ & Hc & _ & _ & _ & _ & _ & HP & _). apply HP. left. destruct (Hcd _ _ Hc) as (_ & _ & _ & _ & _ & -> & _). auto. }
  specialize (HM HN). split; [|split].
  - apply (f_equal fst) in HM. exact HM.
  - intros Hw. apply (f_equal snd) in HM. cbn [snd] in HM. rewrite HM, Hw. cbn [moved snd].
    match goal with |- q_unit ?x = _ => assert (E : x = b_q b) end. { generalize (b_q b). clear. intros [s x y z]. unfold qadd, qscale. qunf. f_equal; ring. }
    rewrite E. clear E.
    unfold q_unit, qnorm. unfold is_unit in Hq. rewrite Hq, sqrt_1. destruct (Rltb_spec 0 1); [|lra].
    destruct (b_q b); cbn; f_equal; field.
  - intros Hw. apply (f_equal snd) in HM. cbn [snd] in HM. rewrite HM. apply moved_rotation; auto.
Qed.

(** * C55 *)
(** state.copy_to_engine(engine), state_storage.py:55-68 *)
Definition copy_to_engine (st : state) (e : engine) : engine := set_bodies e (copy_to_bodies (s_x st) (s_u st) (e_bodies e)).
Theorem C55_round_trip e st : copy_from_engine e = Some st -> copy_to_engine st e = e.
Proof.
  intros H. destruct (copy_from_eq _ _ H) as (Ex & Eu & _). unfold copy_to_engine. rewrite Ex, Eu, round_trip. destruct e; reflexivity.
Qed.
(** who owns which slots when reading from the engine *)
Theorem C55_slots e st k b : copy_from_engine e = Some st -> nth_error (e_bodies e) k = Some b ->
  mkV (s_x st (7 * k)%nat) (s_x st (7 * k + 1)%nat) (s_x st (7 * k + 2)%nat) = b_r b /\
  mkQ (s_x st (7 * k + 3)%nat) (s_x st (7 * k + 4)%nat) (s_x st (7 * k + 5)%nat) (s_x st (7 * k + 6)%nat) = b_q b /\
  mkV (s_u st (6 * k)%nat) (s_u st (6 * k + 1)%nat) (s_u st (6 * k + 2)%nat) = b_v b /\
  mkV (s_u st (6 * k + 3)%nat) (s_u st (6 * k + 4)%nat) (s_u st (6 * k + 5)%nat) = b_w b.
Proof.
  intros H Hk. destruct (copy_from_eq _ _ H) as (Ex & Eu & _). rewrite Ex, Eu.
  destruct (position_vector_block _ _ _ Hk) as [H1 H2]. destruct (velocity_vector_block _ _ _ Hk) as [H3 H4].
  unfold read3, read4 in *. rewrite <- !Nat.add_assoc in *. cbn [Nat.add] in *. auto.
Qed.
(** and when writing to it *)
Theorem C55_write st e k b : nth_error (e_bodies e) k = Some b ->
  exists b', nth_error (e_bodies (copy_to_engine st e)) k = Some b' /\ b_name b' = b_name b /\
  b_r b' = mkV (s_x st (7 * k)%nat) (s_x st (7 * k + 1)%nat) (s_x st (7 * k + 2)%nat) /\
  b_q b' = mkQ (s_x st (7 * k + 3)%nat) (s_x st (7 * k + 4)%nat) (s_x st (7 * k + 5)%nat) (s_x st (7 * k + 6)%nat) /\
  b_v b' = mkV (s_u st (6 * k)%nat) (s_u st (6 * k + 1)%nat) (s_u st (6 * k + 2)%nat) /\
  b_w b' = mkV (s_u st (6 * k + 3)%nat) (s_u st (6 * k + 4)%nat) (s_u st (6 * k + 5)%nat).
Proof.
  intros Hk. unfold copy_to_engine. cbn [e_bodies set_bodies]. rewrite copy_nth, Hk. cbn [option_map]. eexists; split; [reflexivity|]. cbn [b_name b_r b_q b_v b_w with_pose with_vel].
  unfold read3, read4. rewrite <- !Nat.add_assoc. cbn [Nat.add]. auto.
Qed.

(** * C64 *)
Lemma energy_term b : 1 / 2 * (b_mass b * vdot (b_v b) (b_v b) + vdot (b_w b) (mvec (update_inertia_tensor (q_to_matrix (b_q b)) (b_inertia b)) (b_w b))) = kinetic_energy b.
Proof.
  unfold kinetic_energy. generalize (q_to_matrix (b_q b)) (b_inertia b) (b_v b) (b_w b) (b_mass b). intros A I v w m.
  destruct A, I, v, w. unfold update_inertia_tensor, mvec, vdot, mT; cbn. field.
Qed.
Lemma gravity_sum_spec fs : gravity_sum fs = (fold_left vadd (gravities fs) vzero, match gravities fs with [] => false | _ => true end).
Proof.
  unfold gravity_sum. assert (G : forall fs G x, fold_left (fun G f => match f with Gravity _ g up => (vadd (fst G) (vscale g up), true) | Damping _ _ _ => G end) fs (G, x)
     = (fold_left vadd (gravities fs) G, match gravities fs with [] => x | _ => true end)).
  { clear. induction fs as [|f fs IH]; intros G x; [reflexivity|]. cbn [fold_left]. destruct f as [n g up|n al be]; cbn [gravities flat_map app fold_left fst].
    - rewrite IH. cbn [fst]. f_equal. fold (gravities fs). destruct (gravities fs); reflexivity.
    - apply IH. }
  apply G.
Qed.
Lemma fold_vadd l : forall a, fold_left vadd l a = vadd a (vsum l).
Proof.
  induction l as [|x l IH]; intros a; cbn; [destruct a; unfold vadd, vzero; cbn; f_equal; ring|]. rewrite IH. unfold vsum. destruct a, x, (fold_right vadd vzero l); unfold vadd; cbn; f_equal; ring.
Qed.
Lemma enum_snd {A} (l : list A) : map snd (enum l) = l.
Proof. unfold enum. generalize 0%nat. induction l as [|x l IH]; intros n; cbn; [reflexivity|]. f_equal; apply IH. Qed.
(** the potential of a unit mass at position r in the gravity fields of the list *)
Definition potential_at (fs : list force) (r : vec3) : R := vdot (vsum (gravities fs)) r.
Definition free_bodies (e : engine) : list body := filter (fun b => negb (b_fixed b)) (e_bodies e).
Lemma pot_term m (G r : vec3) : G <> vzero -> m * vnorm G * vdot (v3_unit G) r = m * vdot G r.
Proof. intros H. assert (Hp := vnorm_pos G H). unfold v3_unit. destruct G, r; unfold vdot, vdiv; cbn. field. lra. Qed.
(** the two numbers reported: sums over the free bodies *)
Theorem C64_energy e st : copy_from_engine e = Some st ->
  fst (compute_total_energy (s_x st) (s_u st) e) = lsum (map kinetic_energy (free_bodies e)) /\
  (gravities (e_forces e) = [] \/ vsum (gravities (e_forces e)) <> vzero ->
   snd (compute_total_energy (s_x st) (s_u st) e) = lsum (map (fun b => b_mass b * potential_at (e_forces e) (b_r b)) (free_bodies e))).
Proof.
  intros H. destruct (copy_from_eq _ _ H) as (Ex & Eu & _). unfold compute_total_energy. rewrite Ex, Eu, gravity_sum_spec.
  set (G := fold_left vadd (gravities (e_forces e)) vzero). assert (EG : G = vsum (gravities (e_forces e))). { unfold G. rewrite fold_vadd. destruct (vsum _); unfold vadd, vzero; cbn; f_equal; ring. }
  set (has := match gravities (e_forces e) with [] => false | _ => true end).
  set (bs := e_bodies e).
  set (F := fun (kp : R * R) (kb : nat * body) => _).
  set (pt := fun b => if has then b_mass b * vnorm G * vdot (v3_unit G) (b_r b) else 0).
  assert (GF : forall l kp, (forall k b, In (k, b) l -> nth_error bs k = Some b) ->
    fold_left F l kp = (fst kp + lsum (map kinetic_energy (filter (fun b => negb (b_fixed b)) (map snd l))), snd kp + lsum (map pt (filter (fun b => negb (b_fixed b)) (map snd l))))).
  { induction l as [|[k b] l IH]; intros kp Hl; cbn [fold_left map filter]. { cbn. destruct kp; cbn; f_equal; ring. }
    rewrite IH by (intros; apply Hl; right; auto). unfold F at 1. cbn [snd]. unfold F. destruct (b_fixed b); cbn [negb]; [reflexivity|].
    assert (Hk := Hl k b (or_introl eq_refl)). destruct (position_vector_block _ _ _ Hk) as [-> ->]. destruct (velocity_vector_block _ _ _ Hk) as [-> ->].
    cbv zeta. rewrite energy_term. cbn [fst snd map lsum fold_right]. unfold lsum, pt. f_equal; ring. }
  rewrite GF. 2:{ intros k b Hin. apply enum_in. auto. }
  rewrite enum_snd. cbn [fst snd]. unfold bs. fold (free_bodies e). split; [ring|]. intros HG. rewrite Rplus_0_l. f_equal. apply map_ext. intros b. unfold pt, potential_at.
  rewrite <- EG. destruct HG as [HG|HG].
  - unfold has. rewrite HG. rewrite EG, HG. unfold vdot; cbn. ring.
  - unfold has. destruct (gravities (e_forces e)) as [|g l] eqn:Eg; [exfalso; apply HG; reflexivity|]. apply pot_term. rewrite EG. auto.
Qed.
(** kinetic energy is not negative *)
Theorem C64_kinetic_nonneg e st : copy_from_engine e = Some st ->
  Forall (fun b => b_fixed b = false -> 0 < b_mass b /\ 0 < vx (b_inertia b) /\ 0 < vy (b_inertia b) /\ 0 < vz (b_inertia b)) (e_bodies e) ->
  0 <= fst (compute_total_energy (s_x st) (s_u st) e).
Proof.
  intros H HP. rewrite (proj1 (C64_energy e st H)). rewrite Forall_forall in HP.
  assert (G : forall b, In b (free_bodies e) -> 0 <= kinetic_energy b).
  { intros b Hb. apply filter_In in Hb as [Hb Hf]. destruct (b_fixed b) eqn:E; [discriminate|]. destruct (HP b Hb E) as (Hm & Hx & Hy & Hz).
    unfold kinetic_energy. set (om := mvec _ _). assert (0 <= vdot (b_v b) (b_v b)) by (unfold vdot; nra). 
    assert (0 <= vx om * vx om) by nra. assert (0 <= vy om * vy om) by nra. assert (0 <= vz om * vz om) by nra. cbv zeta. fold om.
    assert (0 <= b_mass b * vdot (b_v b) (b_v b)) by (apply Rmult_le_pos; lra).
    assert (0 <= vx (b_inertia b) * (vx om * vx om)) by (apply Rmult_le_pos; lra).
    assert (0 <= vy (b_inertia b) * (vy om * vy om)) by (apply Rmult_le_pos; lra).
    assert (0 <= vz (b_inertia b) * (vz om * vz om)) by (apply Rmult_le_pos; lra). lra. }
  induction (free_bodies e) as [|b l IH]; cbn; [lra|]. assert (0 <= kinetic_energy b) by (apply G; left; auto).
  assert (0 <= fold_right Rplus 0 (map kinetic_energy l)) by (apply IH; intros; apply G; right; auto). lra.
Qed.
(** the reported potential energy counts every gravity force of the engine for every free body *)
Theorem C64_potential_partial e st : copy_from_engine e = Some st ->
  (forall b, In b (free_bodies e) -> gravities (b_forces b) = gravities (e_forces e)) -> vsum (gravities (e_forces e)) <> vzero ->
  snd (compute_total_energy (s_x st) (s_u st) e) = lsum (map (fun b => b_mass b * potential_at (b_forces b) (b_r b)) (free_bodies e)).
Proof.
  intros H HA HG. rewrite (proj2 (C64_energy e st H)) by auto. f_equal. apply map_ext_in. intros b Hb. unfold potential_at. rewrite (HA b Hb). reflexivity.
Qed.
(** so a body on which no gravity acts is charged with potential energy *)
Definition ex_floating : engine :=
  mkEngine [with_pose (with_mass (body_init [97%nat] 0) 1 (mkV 1 1 1)) (mkV 0 0 2) q_identity] [Gravity [103%nat] 10 (mkV 0 0 1)] [] [] [] library_init params_init true.
Theorem C64_potential_refuted : exists e st, copy_from_engine e = Some st /\
  (forall b, In b (e_bodies e) -> b_forces b = []) /\
  snd (compute_total_energy (s_x st) (s_u st) e) <> lsum (map (fun b => b_mass b * potential_at (b_forces b) (b_r b)) (free_bodies e)).
Proof.
  assert (exists st, copy_from_engine ex_floating = Some st) as [st Hst].
  { unfold copy_from_engine, compute_inverse_mass_matrix, ex_floating. cbn [e_bodies length]. unfold enum. cbn [length seq combine map_opt fst snd].
    unfold inverse_mass_blocks. cbn. destruct (Reqb_spec 1 0); [lra|]. cbn. eauto. }
  exists ex_floating, st. split; auto. split; [intros b [<-|[]]; reflexivity|].
  rewrite (proj2 (C64_energy _ _ Hst)).
  - cbn. unfold potential_at, vdot, vsum, vadd, vscale; cbn. lra.
  - right. intros E. apply (f_equal vz) in E. cbn in E. lra.
Qed.

(** * C75 *)
Lemma ext_force_spec b : ext_force b = (net_force b, net_torque (update_inertia_tensor (q_to_matrix (b_q b)) (b_inertia b)) b).
Proof.
  unfold ext_force, net_force, net_torque. set (t0 := vopp _). generalize (b_v b) (b_w b) (b_mass b). intros v w m. clearbody t0.
  assert (G : forall fs F T, fold_left (fun (ft : vec3 * vec3) f => let '(Fi, Ti) := force_compute f m v w in (vadd (fst ft) Fi, vadd (snd ft) Ti)) fs (F, T) =
    (vadd F (vsub (vscale (- m) (vsum (gravities fs))) (vscale (fst (dampings fs)) v)), vsub T (vscale (snd (dampings fs)) w))).
  { induction fs as [|f fs IH]; intros F T; cbn [fold_left].
    - cbn. destruct F, T, v, w; unfold vadd, vsub, vscale, vzero; cbn; f_equal; f_equal; ring.
    - destruct f as [n g up|n al be]; cbn [force_compute fst snd]; rewrite IH; cbn [gravities flat_map app vsum fold_right dampings map lsum fst snd];
      fold (gravities fs); fold (vsum (gravities fs)); unfold lsum; cbn [map fold_right].
      + generalize (vsum (gravities fs)) (fst (dampings fs)) (snd (dampings fs)). intros G al be. unfold dampings, lsum; cbn [fst snd].
        set (x := fold_right _ _ _). set (y := fold_right _ _ _). destruct F, T, v, w, up, G; unfold vadd, vsub, vscale, vzero; cbn. f_equal; f_equal; ring.
      + unfold dampings, lsum; cbn [fst snd]. set (x := fold_right _ _ (map _ fs)). set (y := fold_right _ _ (map _ fs)).
        destruct F, T, v, w, (vsum (gravities fs)); unfold vadd, vsub, vscale, vopp, vzero; cbn. f_equal; f_equal; ring. }
  rewrite G. f_equal. generalize (vsub (vscale (- m) (vsum (gravities (b_forces b)))) (vscale (fst (dampings (b_forces b))) v)). intros [x y z]; unfold vadd, vzero; cbn; f_equal; ring.
Qed.
Lemma tensor_eq A B : update_inertia_tensor A B = world_tensor A B.
Proof. destruct A, B. unfold update_inertia_tensor, world_tensor, mmul, mdiag, mT; cbn. f_equal; ring. Qed.
Lemma no_problems_no_impulse cd solver dt e e' t : cd_ok cd -> step_facts cd solver dt e e' t -> e_hinges e = [] -> e_contacts e' = [] ->
  (forall j, total_impulse (t_pairs t) j = 0) /\ t_post t = None.
Proof.
  intros Hcd HF Hh Hc. destruct HF as (_ & Hcd' & C1 & _ & H1 & _ & _ & P1 & _ & He').
  assert (E1 : e_contacts (t_engine t) = []). { rewrite He' in Hc. cbn in Hc. exact Hc. }
  assert (E2 : e_hinges (t_engine t) = []). { destruct (Hcd _ _ Hcd') as (_ & -> & _). exact Hh. }
  split; [|apply P1; right; apply C1; auto]. intros j. unfold t_pairs. rewrite (C1 E1), (H1 E2). reflexivity.
Qed.
(** One step of a free body when the engine has no hinges and the step found no contacts:
    v' = v + dt F / m, w' = w + dt I^-1 T, then r' = r + dt v' (the new velocity). *)
Theorem C75_free_flight solver cd dt e e' k b : cd_ok cd -> step_with solver cd dt e = Some e' -> e_hinges e = [] -> e_contacts e' = [] ->
  nth_error (e_bodies e) k = Some b -> b_fixed b = false ->
  let R := q_to_matrix (b_q b) in
  exists b', nth_error (e_bodies e') k = Some b' /\
    b_v b' = vadd (b_v b) (vscale (dt / b_mass b) (net_force b)) /\
    b_w b' = vadd (b_w b) (vscale dt (mvec (world_tensor R (vinv (b_inertia b))) (net_torque (world_tensor R (b_inertia b)) b))) /\
    b_r b' = vadd (b_r b) (vscale dt (b_v b')).
Proof.
  intros Hcd H Hh Hc Hk Hf R. destruct (step_decompose _ _ _ _ _ Hcd H) as (t & HF).
  destruct (step_body _ _ _ _ _ _ _ _ Hcd HF Hk) as (b' & Hk' & _ & _ & HD). exists b'. split; auto.
  destruct (no_problems_no_impulse _ _ _ _ _ _ Hcd HF Hh Hc) as [HI HN].
  destruct (HD Hf) as (Hm & _ & _ & _ & Ev & Ew & _ & HM). rewrite ext_force_spec in Ev, Ew. cbn [fst snd] in Ev, Ew.
  assert (Z : forall o, read3 (total_impulse (t_pairs t)) o = vzero). { intros o. unfold read3. rewrite !HI. reflexivity. }
  rewrite Z in Ev, Ew. split; [|split].
  - rewrite Ev. generalize (net_force b) (b_v b). intros [x y z] [a c d]. unfold vadd, vscale, vzero; cbn. f_equal; field; auto.
  - rewrite Ew. unfold inv_inertia_world. rewrite !tensor_eq. fold R. fold (vinv (b_inertia b)). generalize (world_tensor R (vinv (b_inertia b))) (net_torque (world_tensor R (b_inertia b)) b) (b_w b).
    intros A [x y z] [a c d]. destruct A. unfold vadd, vscale, vzero, mvec, vdot; cbn. f_equal; ring.
  - apply (f_equal fst) in HM; auto.
Qed.

(** steps in which no contact is found *)
Definition contact_free_step (dt : R) (e : engine) : option engine :=
  match step dt e with Some e' => match e_contacts e' with [] => Some e' | _ => None end | None => None end.
(** n steps of size h of a body on which only gravity acts, in closed form *)
Theorem C75_ballistic h n e e' k b G : run_steps contact_free_step (repeat h n) e = Some e' -> e_hinges e = [] ->
  nth_error (e_bodies e) k = Some b -> b_fixed b = false -> G = vsum (gravities (b_forces b)) -> fst (dampings (b_forces b)) = 0 ->
  exists b', nth_error (e_bodies e') k = Some b' /\
    b_v b' = vsub (b_v b) (vscale (INR n * h) G) /\
    b_r b' = vsub (vadd (b_r b) (vscale (INR n * h) (b_v b))) (vscale (h * h * (INR n * (INR n + 1) / 2)) G).
Proof.
  intros H Hh Hk Hf HG HD0.
  assert (Gen : forall n e b, run_steps contact_free_step (repeat h n) e = Some e' -> e_hinges e = [] -> nth_error (e_bodies e) k = Some b -> b_fixed b = false ->
    G = vsum (gravities (b_forces b)) -> fst (dampings (b_forces b)) = 0 -> exists b', nth_error (e_bodies e') k = Some b' /\
    b_v b' = vsub (b_v b) (vscale (INR n * h) G) /\
    b_r b' = vsub (vadd (b_r b) (vscale (INR n * h) (b_v b))) (vscale (h * h * (INR n * (INR n + 1) / 2)) G)).
  2:{ eapply Gen; eauto. }
  clear. induction n as [|n IH]; intros e b H Hh Hk Hf HG HD0.
  - cbn in H. assert (e = e') by congruence. subst. exists b. split; auto. cbn [INR]. destruct (b_v b), (b_r b). generalize (vsum (gravities (b_forces b))). intros [x y z].
    unfold vsub, vadd, vscale; cbn. split; f_equal; field.
  - cbn [repeat run_steps] in H. unfold contact_free_step at 1 in H. destruct (step h e) as [e1|] eqn:E1; [|discriminate].
    destruct (e_contacts e1) eqn:Ec; [|discriminate].
    destruct (C75_free_flight _ _ _ _ _ _ _ run_cd_ok E1 Hh Ec Hk Hf) as (b1 & Hk1 & Ev & _ & Er).
    destruct (step_decompose _ _ _ _ _ run_cd_ok E1) as (t & HF).
    destruct (step_body _ _ _ _ _ _ _ _ run_cd_ok HF Hk) as (b1' & Hk1' & HS & _ & HM0). assert (b1' = b1) by congruence. subst b1'.
    destruct (HM0 Hf) as (Hm & _). destruct HS as (_ & _ & _ & _ & _ & Sf & Sfo & _).
    assert (Hh1 : e_hinges e1 = []). { destruct HF as (_ & Hc & _ & _ & _ & _ & _ & _ & _ & He'). rewrite He'. cbn. destruct (run_cd_ok _ _ Hc) as (_ & -> & _). auto. }
    destruct (IH e1 b1 H Hh1 Hk1) as (b' & Hk' & Ev' & Er'); [congruence|congruence|congruence|]. exists b'. split; auto.
    unfold net_force in Ev. rewrite HD0, <- HG in Ev.
    assert (Ev2 : b_v b1 = vsub (b_v b) (vscale h G)). { rewrite Ev. destruct (b_v b), G. unfold vadd, vsub, vscale; cbn. f_equal; field; auto. }
    rewrite Ev', Er', Er, Ev2. rewrite S_INR. generalize (INR n). intros x. destruct (b_v b), (b_r b), G. unfold vsub, vadd, vscale; cbn. split; f_equal; field.
Qed.
Lemma one_body_no_contacts dt e e' b : e_bodies e = [b] -> step dt e = Some e' -> e_contacts e' = [] /\ exists b', e_bodies e' = [b'].
Proof.
  intros Hb H. destruct (step_decompose _ _ _ _ _ run_cd_ok H) as (t & HF). destruct HF as (_ & Hc & _ & _ & _ & _ & _ & _ & _ & He').
  unfold run_collision_detection in Hc. destruct (update_bvh e) as [e1|] eqn:E1; [|discriminate].
  assert (HB : exists b1, e_bodies e1 = [b1]). { unfold update_bvh in E1. rewrite Hb in E1. cbn [map_opt] in E1.
    match type of E1 with context [match ?x with Some _ => _ | None => None end] => destruct x as [l|] eqn:E2 end; [|discriminate].
    match type of E2 with (match ?x with _ => _ end) = _ => destruct x as [b1|]; [|discriminate] end. assert (l = [b1]) by congruence. subst. exists b1. assert (e1 = set_bodies e [b1]) by congruence. subst. reflexivity. }
  destruct HB as [b1 HB]. assert (E2 : narrow_phase e1 = Some []) by (unfold narrow_phase; rewrite HB; reflexivity). rewrite E2 in Hc. cbn in Hc.
  injection Hc; intros Et. rewrite He', <- Et. cbn. rewrite HB. split; [reflexivity|]. unfold copy_to_bodies, enum. cbn. eauto.
Qed.
(** an engine with a single body never has contacts, so the closed form holds for [step] itself *)
Theorem C75_single_body h n e e' b G : run_steps step (repeat h n) e = Some e' -> e_hinges e = [] -> e_bodies e = [b] -> b_fixed b = false ->
  G = vsum (gravities (b_forces b)) -> fst (dampings (b_forces b)) = 0 ->
  exists b', e_bodies e' = [b'] /\
    b_v b' = vsub (b_v b) (vscale (INR n * h) G) /\
    b_r b' = vsub (vadd (b_r b) (vscale (INR n * h) (b_v b))) (vscale (h * h * (INR n * (INR n + 1) / 2)) G).
Proof.
  intros H Hh Hb Hf HG HD.
  assert (H2 : forall n e b, e_bodies e = [b] -> run_steps step (repeat h n) e = Some e' -> run_steps contact_free_step (repeat h n) e = Some e' /\ exists b', e_bodies e' = [b']).
  { clear. induction n as [|n IH]; intros e b Hb H; cbn [repeat run_steps] in *. { assert (e = e') by congruence. subst. eauto. }
    destruct (step h e) as [e1|] eqn:E1; [|discriminate]. destruct (one_body_no_contacts _ _ _ _ Hb E1) as [Hc [b1 Hb1]].
    unfold contact_free_step at 1. rewrite E1, Hc. apply (IH e1 b1); auto. }
  destruct (H2 n e b Hb H) as [H3 [b2 Hb2]].
  destruct (C75_ballistic h n e e' 0 b G H3 Hh) as (b' & Hk' & Ev & Er); auto. { rewrite Hb. reflexivity. }
  exists b'. rewrite Hb2 in *. cbn in Hk'. assert (b2 = b') by congruence. subst. auto.
Qed.

(** * C76 *)
(** the solver terminates and no step raises on a ready engine; it stays ready *)
Theorem C76_step_never_raises dt e : dt <> 0 -> engine_ready e -> exists e', step dt e = Some e' /\ engine_ready e'.
Proof. intros Hdt HR. destruct (step_total run_solver dt e Hdt HR) as (e' & H & H1 & _). eauto. Qed.
Theorem C76_simulate_returns T e : 0 < T -> 0 < p_time_step (e_params e) -> e_stepper e = true -> engine_ready e ->
  exists e' dts, lsum dts = T /\ engine_ready e' /\ exists n, forall fuel, (n <= fuel)%nat -> simulate fuel T e = SimDone e' dts.
Proof.
  intros HT Hts Hst HR. destruct (C48_simulate T e HT Hts Hst) as (n & Hn).
  assert (Gn : forall fuel, (n <= fuel)%nat -> exists e' dts, simulate fuel T e = SimDone e' dts /\ lsum dts = T /\ engine_ready e').
  { intros fuel Hf. assert (NR : simulate fuel T e <> SimRaises).
    { unfold simulate, simulate_with. destruct (Rleb_spec T 0); [lra|]. rewrite Hst. cbn [negb].
      assert (L : forall fuel T e, 0 <= T -> 0 < p_time_step (e_params e) -> engine_ready e -> sim_loop step (fun e => p_time_step (e_params e)) fuel T e <> Some None).
      { clear. induction fuel as [|fuel IH]; intros T e HT Hts HR; cbn [sim_loop]; destruct (Reqb_spec T 0); try discriminate.
        assert (Hmin : 0 < Rmin T (p_time_step (e_params e)) <= T). { split; [apply Rmin_glb_lt; lra|apply Rmin_l]. }
        destruct (C76_step_never_raises (Rmin T (p_time_step (e_params e))) e) as (e1 & E1 & HR1); [lra|auto|]. rewrite E1.
        assert (HP := proj1 (step_params _ _ _ _ _ run_cd_ok E1)).
        specialize (IH (T - Rmin T (p_time_step (e_params e))) e1 ltac:(lra) ltac:(rewrite HP; auto) HR1).
        destruct (sim_loop _ _ fuel _ e1) as [[[e2 d2]|]|]; try discriminate. congruence. }
      specialize (L fuel T e ltac:(lra) Hts HR). destruct (sim_loop _ _ _ _ _) as [[[e2 d2]|]|]; try discriminate. congruence. }
    destruct (Hn fuel Hf) as [H|(e' & k & last & H & Hl & Hs & Hr)]; [contradiction|]. exists e', (repeat (p_time_step (e_params e)) k ++ [last]). split; auto. split; auto.
    assert (Hall : Forall (fun d => 0 < d) (repeat (p_time_step (e_params e)) k ++ [last])).
    { apply Forall_app. split; [|repeat constructor; lra]. apply Forall_forall. intros d Hd. apply repeat_spec in Hd. lra. }
    revert Hr Hall HR. clear. generalize (repeat (p_time_step (e_params e)) k ++ [last]). intros dts. revert e.
    induction dts as [|dt dts IH]; intros e Hr Hall HR; cbn in Hr; [congruence|]. inversion Hall; subst.
    destruct (C76_step_never_raises dt e) as (e1 & E1 & HR1); [lra|auto|]. rewrite E1 in Hr. eapply IH; eauto. }
  destruct (Gn n (le_n n)) as (e' & dts & H & Hs & HR'). exists e', dts. split; auto. split; auto. exists n. intros fuel Hf.
  destruct (Hn fuel Hf) as [H2|(e2 & k & last & H2 & _)].
  - destruct (Gn fuel Hf) as (? & ? & H3 & _). congruence.
  - rewrite H2. revert H H2 Hf. unfold simulate, simulate_with. destruct (Rleb T 0); [discriminate|]. destruct (negb _); [discriminate|].
    set (ds := repeat _ k ++ [last]). clearbody ds. clear. intros H H2 Hf.
    assert (Mono : forall f1 f2 T e r, (f1 <= f2)%nat -> sim_loop step (fun e => p_time_step (e_params e)) f1 T e = Some (Some r) -> sim_loop step (fun e => p_time_step (e_params e)) f2 T e = Some (Some r)).
    { clear. induction f1 as [|f1 IH]; intros f2 T e r Hle H.
      - cbn [sim_loop] in H. destruct (Reqb T 0) eqn:E; [|discriminate]. destruct f2; cbn [sim_loop]; rewrite E; auto.
      - destruct f2 as [|f2]; [lia|]. cbn [sim_loop] in *. destruct (Reqb T 0); auto. destruct (step _ e) as [e1|]; [|discriminate].
        destruct (sim_loop _ _ f1 _ e1) as [[[e3 d3]|]|] eqn:E; try discriminate. rewrite (IH f2 _ _ _ ltac:(lia) E). auto. }
    destruct (sim_loop step _ n T e) as [[[ea da]|]|] eqn:E; try discriminate. rewrite (Mono _ _ _ _ _ Hf E) in H2. congruence.
Qed.

(** * A concrete engine meeting the hypotheses above *)
Definition w_grid : grid := mkG (mkV (-2) (-2) (-2)) (mkV 2 2 2) 2 2 2 (mkV 4 4 4) (Some (repeat 1 8)).
Definition w_V : list vec3 := [mkV 0 0 0; mkV 1 0 0; mkV 0 1 0; mkV 0 0 1].
Definition w_T : list tri := [(0, 2, 1); (0, 1, 3); (0, 3, 2); (1, 2, 3)]%Z.
Definition w_shape : shape := mkShape [115%nat] w_V w_T w_grid 1 (mkV 1 1 1) vzero q_identity.
Definition w_grav : force := Gravity [103%nat] 10 (mkV 0 0 1).
Definition w_body (tr : tree) (nm : name) (idx : nat) (r v : vec3) (fx : bool) (fs : list force) : body :=
  mkBody nm idx q_identity r v (mkV 0 0 1) 2 (mkV 1 2 3) (Some w_shape) fx fs default_name (Some tr).
Definition w_engine (bs : list body) : engine := mkEngine bs [w_grav] [w_shape] [] [] library_init params_init true.
Lemma w_mesh : valid_mesh w_V (map tri_list w_T).
Proof.
  intros el H. cbn in H. repeat match goal with H : _ \/ _ |- _ => destruct H as [<-|H] | H : False |- _ => destruct H end; eexists; reflexivity.
Qed.
Lemma w_tree : exists tr, make_bvh w_V (map tri_list w_T) 3 255 (1/10) = Some tr.
Proof. destruct (C20_make_bvh_shape w_V (map tri_list w_T) 3 255 (1/10) (or_introl eq_refl) w_mesh ltac:(lia)) as (tr & E & _). eauto. Qed.
Lemma w_grid_ready : grid_ready w_grid.
Proof.
  exists (mkV (-2) (-2) (-2)), (mkV 2 2 2), 2%Z, 2%Z, 2%Z, (fun _ _ _ => 1). cbn [vx vy vz]. repeat match goal with |- _ /\ _ => split end; try lra.
  - unfold grid_of. cbn [vx vy vz]. repeat match goal with |- _ /\ _ => split end; try lra.
    destruct (grid_make_some (mkV (-2) (-2) (-2)) (mkV 2 2 2) 2 2 2) as (g0 & E & H); cbn; try lra; try lia. exists g0. split; auto.
    unfold grid_make in E. destruct (any_lt _ _); [discriminate|]. cbn in E. injection E as <-. exists (Some (repeat 1 8)). cbn. unfold w_grid. f_equal. apply vec3_eq; cbn; lra.
  - intros i j k (Hi & Hj & Hk). cbn in Hi, Hj, Hk. unfold get_node_value, get_linear_index. cbn [g_values g_I g_J w_grid].
    assert (Ci : (i = 0 \/ i = 1)%Z) by lia. assert (Cj : (j = 0 \/ j = 1)%Z) by lia. assert (Ck : (k = 0 \/ k = 1)%Z) by lia.
    destruct Ci as [-> | ->], Cj as [-> | ->], Ck as [-> | ->]; reflexivity.
Qed.
Lemma w_body_ready tr nm idx r v fx fs : make_bvh w_V (map tri_list w_T) 3 255 (1/10) = Some tr -> body_ready 3 (w_body tr nm idx r v fx fs).
Proof.
  intros E. split; [|split].
  - exists w_shape, tr, 255%Z, w_V, (1/10). cbn. split; [auto|]. split; [apply w_mesh|]. split; [apply w_grid_ready|]. split; [auto|]. split; [lia|].
    apply reach_make; auto. apply w_mesh.
  - unfold is_unit, qdot; cbn. ring.
  - intros _. cbn. repeat split; lra.
Qed.
Lemma w_engine_ready bs : Forall (body_ready 3) bs -> engine_ready (w_engine bs).
Proof. intros H. split; [left; reflexivity|]. split; [exact H|]. split; [constructor|]. cbn. discriminate. Qed.
(** two bodies, one of them fixed and rotating: the engine is ready, so both can be stepped and simulated (C48, C49, C50, C76) *)
Example C49_nonvacuous : exists e e' dts b0 b1, engine_ready e /\ e_bodies e = [b0; b1] /\ b_fixed b0 = false /\ b_fixed b1 = true /\ b_w b1 <> vzero /\
  e_stepper e = true /\ 0 < p_time_step (e_params e) /\ (exists fuel, simulate fuel 1 e = SimDone e' dts) /\ lsum dts = 1.
Proof.
  destruct w_tree as (tr & E). set (b0 := w_body tr [97%nat] 0 (mkV 0 0 5) (mkV 1 0 0) false [w_grav]). set (b1 := w_body tr [98%nat] 1 vzero vzero true []).
  assert (HR : engine_ready (w_engine [b0; b1])). { apply w_engine_ready. repeat constructor; apply w_body_ready; auto. }
  destruct (C76_simulate_returns 1 (w_engine [b0; b1])) as (e' & dts & Hs & _ & n & Hn); [lra|cbn; lra|auto|auto|].
  exists (w_engine [b0; b1]), e', dts, b0, b1. repeat match goal with |- _ /\ _ => split end; auto; try reflexivity.
  - intros H. apply (f_equal vz) in H. cbn in H. lra.
  - cbn; lra.
  - exists n. apply Hn. lia.
Qed.
(** a falling body (C75), n steps of a tenth of a second *)
Example C75_nonvacuous n : exists e e' b b', e_bodies e = [b] /\ b_fixed b = false /\ run_steps step (repeat (1/10) n) e = Some e' /\ e_bodies e' = [b'] /\
  vz (b_v b') = - INR n /\ vx (b_r b') = INR n / 10.
Proof.
  destruct w_tree as (tr & E). set (b0 := w_body tr [97%nat] 0 (mkV 0 0 5) (mkV 1 0 0) false [w_grav]).
  assert (HR : engine_ready (w_engine [b0])). { apply w_engine_ready. repeat constructor; apply w_body_ready; auto. }
  assert (HS : forall n e, engine_ready e -> exists e', run_steps step (repeat (1/10) n) e = Some e').
  { clear. induction n as [|n IH]; intros e HR; cbn [repeat run_steps]; [eauto|]. destruct (C76_step_never_raises (1/10) e) as (e1 & -> & HR1); [lra|auto|]. apply IH; auto. }
  destruct (HS n _ HR) as [e' He'].
  destruct (C75_single_body (1/10) n (w_engine [b0]) e' b0 (mkV 0 0 10) He') as (b' & Hb' & Ev & Er); auto.
  { cbn. unfold vsum, vadd, vscale; cbn. apply vec3_eq; cbn; ring. } { cbn. ring. }
  exists (w_engine [b0]), e', b0, b'. repeat match goal with |- _ /\ _ => split end; auto.
  - rewrite Ev. cbn. field.
  - rewrite Er. cbn. field.
Qed.
Print Assumptions C48_rejects.
Print Assumptions C48_simulate.
Print Assumptions C48_nonpositive_step.
Print Assumptions C49_fixed_step.
Print Assumptions C49_fixed_steps.
Print Assumptions C49_fixed_simulate.
Print Assumptions C50_unit_step.
Print Assumptions C50_unit_steps.
Print Assumptions C50_rotation.
Print Assumptions C55_round_trip.
Print Assumptions C55_slots.
Print Assumptions C55_write.
Print Assumptions C64_energy.
Print Assumptions C64_kinetic_nonneg.
Print Assumptions C64_potential_partial.
Print Assumptions C64_potential_refuted.
Print Assumptions C75_free_flight.
Print Assumptions C75_ballistic.
Print Assumptions C75_single_body.
Print Assumptions C76_step_never_raises.
Print Assumptions C76_simulate_returns.
