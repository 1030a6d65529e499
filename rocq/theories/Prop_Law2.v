(** C127 for the actual solver, C128 (energy), C129 (contacts together with joints). *)
From Coq Require Import FunctionalExtensionality Permutation.
From Verif Require Import Base QuatModel VecModel BvhModel GridModel VolModel VecProofs SolverModel SolverSpec SolverProofs ProxModel ProxSpec ProxProofs QuatProofs QuatMatProofs RotProofs
  BvhSpec RigidTypes RigidSpec CollModel StepModel StepProofs StepProofs2 ReadySpec ReadyProofs ConSpec ConProofs ConProofs2 FrameProofs Prop_Step Prop_Constraints Prop_Contacts LawSpec LawProofs LawProofs2 Prop_Law.
Open Scope R_scope.

(** ** the inverse mass matrix is positive semidefinite *)
Definition masses_positive (bs : list body) : Prop := forall b, In b bs -> b_fixed b = false ->
  0 < b_mass b /\ 0 < vx (b_inertia b) /\ 0 < vy (b_inertia b) /\ 0 < vz (b_inertia b).
Lemma rsum6_blocks p u k : rsum 6 (fun i => p (6 * k + i)%nat * u (6 * k + i)%nat) =
  vdot (read3 p (6 * k)) (read3 u (6 * k)) + vdot (read3 p (6 * k + 3)) (read3 u (6 * k + 3)).
Proof.
  unfold vdot, read3; cbn [rsum vx vy vz]. rewrite !Nat.add_0_r.
  replace (6 * k + 3 + 1)%nat with (6 * k + 4)%nat by lia. replace (6 * k + 3 + 2)%nat with (6 * k + 5)%nat by lia. ring.
Qed.
Lemma inertia_psd A B v : is_rotation A -> 0 < vx B -> 0 < vy B -> 0 < vz B -> 0 <= vdot v (mvec (update_inertia_tensor A B) v).
Proof.
  intros HR H1 H2 H3. destruct (vec3_eq_dec v vzero) as [-> | Hv].
  - destruct (update_inertia_tensor A B). unfold vdot, mvec, vzero; cbn. lra.
  - apply Rlt_le. apply C60_positive; auto.
Qed.
Lemma W_psd x bs W f : compute_inverse_mass_matrix x bs = Some W -> masses_positive bs -> 0 <= rsum (6 * length bs) (fun l => f l * mdotv (6 * length bs) W f l).
Proof.
  intros HW HM. rewrite rsum_six. apply rsum_nonneg. intros k Hk. rewrite (rsum6_blocks f (mdotv (6 * length bs) W f) k).
  destruct (nth_error bs k) as [b|] eqn:Eb. 2:{ apply nth_error_None in Eb. lia. }
  destruct (W_dot x bs W k b f HW Eb) as (M & I & HB & -> & ->). unfold inverse_mass_blocks in HB. destruct (b_fixed b) eqn:Ef.
  - assert (M = mzero) by congruence. assert (I = mzero) by congruence. subst. destruct (read3 f (6 * k)), (read3 f (6 * k + 3)). unfold vdot, mvec, mzero; cbn. unfold vdot; cbn. lra.
  - destruct (HM b (nth_error_In _ _ Eb) Ef) as (H1 & H2 & H3 & H4).
    destruct (Reqb_spec (b_mass b) 0); [lra|]. destruct (Reqb_spec (vx (b_inertia b)) 0); [lra|]. destruct (Reqb_spec (vy (b_inertia b)) 0); [lra|]. destruct (Reqb_spec (vz (b_inertia b)) 0); [lra|].
    cbn [orb] in HB. cbv zeta in HB.
    assert (EM : M = mdiag (mkV (1 / b_mass b) (1 / b_mass b) (1 / b_mass b))) by congruence.
    assert (EI : I = update_inertia_tensor (q_to_matrix (read4 x (7 * k + 3))) (mkV (1 / vx (b_inertia b)) (1 / vy (b_inertia b)) (1 / vz (b_inertia b)))) by congruence.
    subst M I. apply Rplus_le_le_0_compat.
    + rewrite mdiag_scale. generalize (read3 f (6 * k)). intros [a1 a2 a3]. unfold vdot, vscale; cbn. assert (0 < 1 / b_mass b) by (apply Rdiv_lt_0_compat; lra).
      assert (0 <= 1 / b_mass b * (a1 * a1 + a2 * a2 + a3 * a3)) by (apply Rmult_le_pos; nra). lra.
    + apply inertia_psd; cbn; try (apply Rdiv_lt_0_compat; lra). apply q_to_matrix_rotation.
Qed.
Lemma diag_nonneg x bs W J i : compute_inverse_mass_matrix x bs = Some W -> masses_positive bs -> 0 <= delassus_diag (6 * length bs) J (mat_WJT (6 * length bs) W J) i.
Proof. intros HW HM. exact (W_psd x bs W (fun l => J i l) HW HM). Qed.

(** everything about the contact problem of a step without joints *)
Lemma step_core solver cd dt e e' : cd_ok cd -> step_with solver cd dt e = Some e' -> bodies_indexed e -> e_hinges e = [] -> e_contacts e' <> [] ->
  exists P mu W u', let N := (6 * length (e_bodies e))%nat in let x := hd vzeros (solver (e_params e) [P]) in posed_contacts cd dt e = Some P /\
  P = contact_problem (length (e_contacts e')) N (pJ P) (mat_WJT N W (pJ P)) (pb P) mu prox_sphere /\
  compute_inverse_mass_matrix (get_position_vector (e_bodies e)) (e_bodies e) = Some W /\
  (forall k b, nth_error (e_bodies e) k = Some b -> exists b', nth_error (e_bodies e') k = Some b' /\ read3 u' (6 * k) = b_v b' /\ read3 u' (6 * k + 3) = b_w b' /\
     (b_fixed b = true -> same_dynamic b b') /\
     (b_fixed b = false ->
       b_v b' = vadd (b_v b) (vscale (1 / b_mass b) (vadd (vscale dt (fst (ext_force b))) (read3 (impulse P x) (6 * k)))) /\
       b_w b' = vadd (b_w b) (mvec (inv_inertia_world b) (vadd (vscale dt (snd (ext_force b))) (read3 (impulse P x) (6 * k + 3)))))) /\
  (forall k c, nth_error (e_contacts e') k = Some c -> exists A B A' B' s t n i,
    find_body e (c_A c) = Some A /\ find_body e (c_B c) = Some B /\ find_body e' (c_A c) = Some A' /\ find_body e' (c_B c) = Some B' /\
    frame_along (c_n c) s t n /\ get_interaction (e_lib e) (b_material A) (b_material B) = Some i /\ mu k = vx (i_mu i) /\
    let vn := vdot n (slip A B A B (c_p c)) in
    normal_of (mdotv N (pJ P) u') k = vdot n (slip A B A' B' (c_p c)) /\
    normal_of (residual P x) k = normal_of (mdotv N (pJ P) u') k + bounce (e_params e) i * vn + push_out (e_params e) dt c vn /\
    friction_of (residual P x) k = friction_of (mdotv N (pJ P) u') k /\
    friction_of (mdotv N (pJ P) u') k = mkV (vdot s (slip A B A' B' (c_p c))) (vdot t (slip A B A' B' (c_p c))) (vdot n (vsub (b_w B') (b_w A')))).
Proof.
  intros Hcd H HI Hh Hc. destruct (step_decompose _ _ _ _ _ Hcd H) as (tr & HF). assert (HF' := HF).
  destruct HF as (Hst & Hcd1 & _ & HC2 & HH1 & _ & Hsol & _ & _ & He').
  set (st := t_state tr) in *. set (e1 := t_engine tr) in *.
  destruct (Hcd _ _ Hcd1) as (HB & Eh1 & _ & _ & EL & EP & _).
  assert (Ec : e_contacts e' = e_contacts e1) by (rewrite He'; reflexivity). rewrite Ec in *.
  destruct (HC2 Hc) as (P & HP & Ecp). assert (Ehp := HH1 ltac:(congruence)). rewrite Ehp, Ecp in *. cbn [app] in *.
  specialize (Hsol ltac:(discriminate)). rewrite EP in Hsol.
  assert (HI1 := indexed_bvh _ _ HB HI). assert (HL := Forall2_len _ _ _ HB).
  destruct (copy_from_eq _ _ Hst) as (Ex & Eu & EW & Ed).
  destruct (contacts_parts _ _ _ _ HP) as (J & g & eps & mu & EJ & Eg & Ee & Em & EB & EK & EN & EPJ & Epx & EPP & Epb).
  rewrite <- HL in *. set (N := (6 * length (e_bodies e))%nat) in *.
  set (u' := fun j => s_u st j + (dt * s_duext st j + mdotv N (s_W st) (total_impulse (t_pairs tr)) j)) in *.
  exists P, mu, (s_W st), u'. cbv zeta. set (x := hd vzeros (solver (e_params e) [P])).
  assert (TI : forall l, total_impulse (t_pairs tr) l = impulse P x l).
  { intros l. unfold t_pairs, x. rewrite Ecp, Ehp, Hsol. cbn [app combine]. destruct (solver (e_params e) [P]) as [|x0 xs]; cbn [hd combine total_impulse fold_right fst snd].
    - symmetry. unfold impulse. apply rsum_zero. intros i _. unfold vzeros. ring.
    - destruct xs; cbn [combine fold_right]; unfold total_impulse; cbn [fold_right fst snd]; ring. }
  split. { unfold posed_contacts. fold st in Hst. rewrite Hst, Hcd1. exact HP. }
  split. { rewrite EPJ. exact EPP. }
  split; [rewrite <- EW; reflexivity|].
  assert (HW : forall j, WJTx P x j = mdotv N (s_W st) (total_impulse (t_pairs tr)) j).
  { intros j. destruct (contacts_assembled _ _ _ _ HP) as [PN PW]. rewrite <- HL in PN, PW. fold N in PN, PW. rewrite (WJTx_impulse P (s_W st) x j) by (rewrite PN; exact PW). rewrite PN.
    apply mdotv_ext. intros l _. symmetry. apply TI. }
  assert (HR : forall i, residual P x i = mdotv N J u' i + eps i * mdotv N J (s_u st) i + g i).
  { intros i. unfold residual, delassus. rewrite EN, EPJ, Epb. rewrite (mdotv_ext N J (WJTx P x) _ i (fun j _ => HW j)).
    unfold u'. rewrite (mdotv_plus N J (s_u st)). rewrite (mdotv_plus N J (fun j => dt * s_duext st j)). ring. }
  split.
  - intros k b Hk. destruct (step_body _ _ _ _ _ _ _ _ Hcd HF' Hk) as (b' & Hk' & _ & HX & HD). exists b'. split; [auto|].
    assert (RI : forall o, read3 (total_impulse (t_pairs tr)) o = read3 (impulse P x) o) by (intros o; apply read3_ext; intros; apply TI).
    rewrite !RI in HD.
    assert (Eb : read3 u' (6 * k) = b_v b' /\ read3 u' (6 * k + 3) = b_w b').
    { rewrite He' in Hk'. cbn [e_bodies set_bodies] in Hk'. rewrite copy_nth in Hk'. destruct (nth_error (e_bodies e1) k); [|discriminate]. cbn [option_map] in Hk'.
      apply some_eq in Hk'. subst b'. split; reflexivity. }
    destruct Eb as [E1 E2]. split; [auto|]. split; [auto|]. split; [auto|]. intros Hf. destruct (HD Hf) as (_ & _ & _ & _ & D1 & D2 & _). split; auto.
  - intros k c Hk. destruct (contact_row e1 J k c HI1 EJ Hk) as (A1 & B1 & s & t & n & EA1 & EB1 & EO & Hrow). rewrite <- HL in Hrow. fold N in Hrow.
    destruct (find_bvh _ _ _ _ HB EA1) as (A & ta & EA & ->). destruct (find_bvh _ _ _ _ HB EB1) as (B & tb & EB' & ->).
    destruct (friction_row _ _ _ _ Em Hk) as (i & Ei & Emu). destruct (restitution_row _ _ _ _ _ Ee Hk Ei) as [R0 R1]. destruct (error_row _ _ _ _ _ _ _ Eg Hk) as [G0 G1].
    rewrite EP in R0, G0. unfold contact_behavior in Ei. rewrite EA1, EB1 in Ei. rewrite EL in Ei. cbn [b_material with_bvh] in Ei.
    set (xp := match t_post tr with Some d => position_update 1 (e_bodies e1) d (position_update dt (e_bodies e1) u' (s_x st)) | None => position_update dt (e_bodies e1) u' (s_x st) end) in He'.
    exists A, B. eexists. eexists. exists s, t, n, i. split; [auto|]. split; [auto|].
    split. { rewrite He'. apply map_find_body; eauto. } split. { rewrite He'. apply map_find_body; eauto. }
    split; [apply orthonormal_some; auto|]. split; [auto|]. split; [auto|].
    assert (HinA := proj1 (find_body_spec _ _ _ EA)). assert (HinB := proj1 (find_body_spec _ _ _ EB')).
    destruct (vel_before e A HI HinA) as [VA WA]. destruct (vel_before e B HI HinB) as [VB WB]. rewrite <- Eu in VA, WA, VB, WB.
    assert (S0 : vsub (velocity_at (s_u st) (with_bvh B tb) (c_p c)) (velocity_at (s_u st) (with_bvh A ta) (c_p c)) = slip A B A B (c_p c)).
    { unfold velocity_at, slip. change (lin (s_u st) (with_bvh B tb)) with (lin (s_u st) B). change (ang (s_u st) (with_bvh B tb)) with (ang (s_u st) B).
      change (lin (s_u st) (with_bvh A ta)) with (lin (s_u st) A). change (ang (s_u st) (with_bvh A ta)) with (ang (s_u st) A). rewrite VA, WA, VB, WB. reflexivity. }
    destruct (Hrow (s_u st)) as (P0 & _). destruct (Hrow u') as (Q0 & Q1 & Q2 & Q3). cbv zeta in P0, Q0, Q1, Q2, Q3. rewrite S0 in P0.
    cbv zeta. rewrite EPJ. split; [|split; [|split]].
    + unfold normal_of. rewrite Q0. reflexivity.
    + unfold normal_of. rewrite HR, R0, P0, G0, P0. reflexivity.
    + unfold friction_of. rewrite !HR. rewrite (R1 1%nat), (R1 2%nat), (R1 3%nat), (G1 1%nat), (G1 2%nat), (G1 3%nat) by lia. f_equal; ring.
    + unfold friction_of. rewrite Q1, Q2, Q3. reflexivity.
Qed.

(** * C127, the solver the engine uses *)
Lemma run_solver_one P S p res code : rigid_solve (engine_sparams S) (map ps_init [P]) = (res, code, [p]) -> run_solver S [P] = [ps_sol p].
Proof. intros H. unfold run_solver. rewrite H. reflexivity. Qed.
(** When the solver stops because its absolute tolerance is reached (exit code 1), every contact satisfies Newton's impact
    law, Signorini's condition and the friction law up to the tolerance times (1/r + row sum of A); r is a positive
    multiple of the reciprocal of the diagonal of A. *)
Theorem C127_stopped cd dt e e' : cd_ok cd -> step_with run_solver cd dt e = Some e' -> bodies_indexed e -> e_hinges e = [] -> e_contacts e' <> [] ->
  masses_positive (e_bodies e) -> (forall key i, lib_get (e_lib e) key = Some i -> 0 <= vx (i_mu i)) ->
  0 < p_nu_reduce (e_params e) -> 0 < p_nu_increase (e_params e) -> 0 < p_abs_tol (e_params e) ->
  exists P, posed_contacts cd dt e = Some P /\ forall res out, rigid_solve (engine_sparams (e_params e)) [ps_init P] = (res, 1%nat, out) ->
  exists x w, run_solver (e_params e) [P] = [x] /\ 0 < w /\
  let r := fun i => w * initial_r 1 (pN P) (pJ P) (pWJT P) i in let d := fun i => p_abs_tol (e_params e) * (/ r i + row_sum P i) in
  (forall i, 0 < r i) /\
  forall k c, nth_error (e_contacts e') k = Some c -> exists A B A' B' s t n i,
    find_body e (c_A c) = Some A /\ find_body e (c_B c) = Some B /\ find_body e' (c_A c) = Some A' /\ find_body e' (c_B c) = Some B' /\
    frame_along (c_n c) s t n /\ get_interaction (e_lib e) (b_material A) (b_material B) = Some i /\
    let vn := vdot n (slip A B A B (c_p c)) in let after := slip A B A' B' (c_p c) in
    let a := vdot n after + bounce (e_params e) i * vn + push_out (e_params e) dt c vn in
    let v := vmul (friction_of r k) (mkV (vdot s after) (vdot t after) (vdot n (vsub (b_w B') (b_w A')))) in
    0 <= normal_of x k /\ - normal_of d k <= a /\ (0 < normal_of x k -> Rabs a <= normal_of d k) /\
    vnorm (friction_of x k) <= vx (i_mu i) * normal_of x k /\
    forall g, vnorm g <= vx (i_mu i) * normal_of x k ->
      vdot (friction_of x k) v <= vdot g v + vdot (vmul (friction_of r k) (friction_of d k)) (mkV 1 1 1) * vnorm (vsub (friction_of x k) g).
Proof.
  intros Hcd H HI Hh Hc HM Hmu N1 N2 HA. destruct (step_core _ _ _ _ _ Hcd H HI Hh Hc) as (P & mu & W & u' & HPo & EP & EW & _ & HR). cbv zeta in EP, HR.
  exists P. split; [exact HPo|]. intros rs out Hrun.
  assert (Hm : forall k, (k < length (e_contacts e'))%nat -> 0 <= mu k).
  { intros k Hk. destruct (nth_error (e_contacts e') k) as [c|] eqn:Ek; [|apply nth_error_None in Ek; lia].
    destruct (HR k c Ek) as (A & B & A' & B' & s & t & n & i & _ & _ & _ & _ & _ & H6 & H7 & _). rewrite H7.
    unfold get_interaction in H6. destruct (lib_get (e_lib e) (pair_key (b_material A) (b_material B))) eqn:E; [assert (i0 = i) by congruence; subst|]; eapply Hmu; eauto. }
  assert (ST := C126_stopped (engine_sparams (e_params e)) [P] rs out N1 N2 HA Hrun 0%nat (length (e_contacts e')) (6 * length (e_bodies e)) (pJ P)
     (mat_WJT (6 * length (e_bodies e)) W (pJ P)) (pb P) mu). cbv zeta in ST. rewrite <- EP in ST.
  destruct (ST eq_refl (fun i => diag_nonneg _ _ W (pJ P) i EW HM) Hm) as (p & w & Hp & Hw & Hr & HLaw). clear ST.
  assert (EN : pN P = (6 * length (e_bodies e))%nat) by (rewrite EP; reflexivity). assert (EWJ : pWJT P = mat_WJT (6 * length (e_bodies e)) W (pJ P)) by (rewrite EP at 1; reflexivity).
  rewrite <- EN in *. rewrite <- EWJ in *.
  assert (ER : hd vzeros (run_solver (e_params e) [P]) = ps_sol p).
  { unfold run_solver. cbn [map]. rewrite Hrun. cbn [snd]. destruct out as [|p0 out]; [discriminate|]. cbn in Hp. assert (p0 = p) by congruence. subst. reflexivity. }
  assert (EL1 : length (run_solver (e_params e) [P]) = 1%nat).
  { unfold run_solver. rewrite map_length. cbn [map]. rewrite Hrun. cbn [snd]. unfold rigid_solve in Hrun.
    assert (L := swept_loop (engine_sparams (e_params e)) [P] N1 N2 (sp_max_iter (engine_sparams (e_params e))) None (map ps_init [P]) (swept_inits _ [P])). cbn [map] in L. rewrite Hrun in L. destruct L as [LF _].
    symmetry. exact (Forall2_len _ _ _ LF). }
  exists (ps_sol p), w. split. { destruct (run_solver (e_params e) [P]) as [|y [|z l]]; cbn in EL1, ER; try lia. congruence. }
  split; [auto|]. cbv zeta. split; [auto|]. intros k c Hk. rewrite ER in HR.
  destruct (HR k c Hk) as (A & B & A' & B' & s & t & n & i & H1 & H2 & H3 & H4 & H5 & H6 & H7 & H8 & H9 & H10 & H11).
  exists A, B, A', B', s, t, n, i. do 6 (split; [auto|]).
  rewrite <- H11, <- H10, <- H8, <- H9, <- H7. apply HLaw. apply nth_error_Some; congruence.
Qed.

(** * C128 *)
Lemma dissipates_work mu xn f wt v : 0 < vx wt -> 0 < vy wt -> 0 < vz wt -> dissipates_most mu xn f (vmul wt v) -> vdot f v <= 0.
Proof.
  intros W1 W2 W3 [HB HD]. set (V := vmul wt v) in *. assert (NN := vnorm_nonneg f).
  destruct (Req_dec (vnorm V) 0) as [Z|Z].
  - assert (ZZ : vdot V V = 0) by (rewrite <- vnorm_sqr, Z; ring). assert (v = vzero).
    { unfold V, vmul, vdot in ZZ; cbn in ZZ. destruct v as [v1 v2 v3], wt as [a b c]; cbn in *. unfold vzero.
      assert (Q1 : a * v1 = 0) by nra. assert (Q2 : b * v2 = 0) by nra. assert (Q3 : c * v3 = 0) by nra.
      f_equal; [apply Rmult_integral in Q1|apply Rmult_integral in Q2|apply Rmult_integral in Q3]; lra. }
    subst v. destruct f; unfold vdot, vzero; cbn. lra.
  - assert (HP : 0 < vnorm V) by (assert (Q := vnorm_nonneg V); lra). set (L := mu * xn) in *.
    assert (HV := vnorm_sqr V).
    assert (HL : 0 <= L) by lra.
    specialize (HD (vscale (- (L / vnorm V)) V)).
    assert (H1 : vnorm (vscale (- (L / vnorm V)) V) <= L).
    { unfold vnorm at 1. replace (vdot (vscale (- (L / vnorm V)) V) (vscale (- (L / vnorm V)) V)) with (L * L * (vdot V V / (vnorm V * vnorm V))).
      - rewrite HV. replace (vdot V V / vdot V V) with 1 by (field; rewrite <- HV; nra). rewrite Rmult_1_r, sqrt_square; lra.
      - destruct V as [a b c]. unfold vdot at 2, vscale; cbn [vx vy vz]. unfold vdot; cbn [vx vy vz]. field. exact Z. }
    specialize (HD H1). replace (vdot (vscale (- (L / vnorm V)) V) V) with (- L * (vdot V V / vnorm V)) in HD.
    2:{ destruct V as [a b c]. unfold vdot at 2, vscale; cbn [vx vy vz]. unfold vdot; cbn [vx vy vz]. field. exact Z. }
    rewrite <- HV in HD. replace (vnorm V * vnorm V / vnorm V) with (vnorm V) in HD by (field; auto).
    assert (HF := vnorm_sqr f). assert (FF : vdot f f <= L * L) by (rewrite <- HF; nra).
    assert (EF : f = vscale (- (L / vnorm V)) V).
    { set (g := vadd f (vscale (L / vnorm V) V)). assert (G0 : vdot g g <= 0).
      { replace (vdot g g) with (vdot f f + 2 * (L / vnorm V) * vdot f V + L / vnorm V * (L / vnorm V) * vdot V V).
        2:{ unfold g. destruct f, V. unfold vdot, vadd, vscale; cbn. ring. }
        rewrite <- HV. replace (L / vnorm V * (L / vnorm V) * (vnorm V * vnorm V)) with (L * L) by (field; auto).
        assert (2 * (L / vnorm V) * vdot f V <= 2 * (L / vnorm V) * (- L * vnorm V)).
        { apply Rmult_le_compat_l; [|exact HD]. apply Rmult_le_pos; [lra|]. apply Rmult_le_pos; [lra|]. apply Rlt_le, Rinv_0_lt_compat; lra. }
        replace (2 * (L / vnorm V) * (- L * vnorm V)) with (- 2 * (L * L)) in * by (field; auto). lra. }
      assert (g = vzero). { apply vdot_self_zero. assert (0 <= vdot g g) by (destruct g; unfold vdot; cbn; nra). lra. }
      unfold g in *. clear - H. destruct f as [f1 f2 f3], (vscale (L / vnorm V) V) as [g1 g2 g3] eqn:E. unfold vadd, vzero in H; cbn in H.
      assert (f1 + g1 = 0) by congruence. assert (f2 + g2 = 0) by congruence. assert (f3 + g3 = 0) by congruence.
      unfold vscale in *. destruct V; cbn in *. assert (g1 = L / vnorm {| vx := vx; vy := vy; vz := vz |} * vx) by congruence.
      assert (g2 = L / vnorm {| vx := vx; vy := vy; vz := vz |} * vy) by congruence. assert (g3 = L / vnorm {| vx := vx; vy := vy; vz := vz |} * vz) by congruence. f_equal; lra. }
    rewrite EF. assert (0 <= L / vnorm V) by (apply Rmult_le_pos; [lra|]; apply Rlt_le, Rinv_0_lt_compat; lra).
    revert H. generalize (L / vnorm V). intros q Hq. clear - W1 W2 W3 Hq. unfold V, vmul, vdot, vscale; destruct v as [v1 v2 v3], wt as [a b c]; cbn in *.
    assert (0 <= q * (a * (v1 * v1))) by (apply Rmult_le_pos; nra). assert (0 <= q * (b * (v2 * v2))) by (apply Rmult_le_pos; nra).
    assert (0 <= q * (c * (v3 * v3))) by (apply Rmult_le_pos; nra). lra.
Qed.

Lemma energy_shift m I I' v w p l : m <> 0 -> mmul I I' = mid -> mT I = I -> mT I' = I' ->
  let v' := vadd v (vscale (1 / m) p) in let w' := vadd w (mvec I' l) in
  1 / 2 * m * vdot v' v' + 1 / 2 * vdot w' (mvec I w') =
  1 / 2 * m * vdot v v + 1 / 2 * vdot w (mvec I w) + (vdot p v' + vdot l w') - 1 / 2 * (vdot p (vscale (1 / m) p) + vdot l (mvec I' l)).
Proof.
  intros Hm HI HS HS' v' w'. set (z := mvec I' l). assert (Ez : mvec I z = l).
  { unfold z. transitivity (mvec (mmul I I') l); [generalize I I' l; clear; intros I I' l; destruct I, I', l; unfold mvec, mmul, vdot; cbn; f_equal; ring|]. rewrite HI. destruct l; unfold mvec, mid, vdot; cbn; f_equal; ring. }
  assert (EV : 1 / 2 * m * vdot v' v' = 1 / 2 * m * vdot v v + vdot p v' - 1 / 2 * vdot p (vscale (1 / m) p)).
  { unfold v'. clear - Hm. destruct v, p; unfold vdot, vadd, vscale; cbn. field. auto. }
  assert (EA : forall a b, vdot a (mvec I b) = vdot b (mvec I a)). { intros a b. assert (G : vdot a (mvec I b) = vdot b (mvec (mT I) a)) by (generalize I; clear; intros I; destruct I, a, b; unfold vdot, mvec, mT; cbn; unfold vdot; cbn; ring). rewrite HS in G. exact G. }
  assert (EW : vdot w' (mvec I w') = vdot w (mvec I w) + 2 * vdot l w + vdot l z).
  { unfold w'. fold z. replace (mvec I (vadd w z)) with (vadd (mvec I w) l). 2:{ rewrite <- Ez. generalize I; clear; intros I; destruct I, w, z; unfold mvec, vadd, vdot; cbn; f_equal; ring. }
    assert (Q := EA z w). rewrite Ez in Q. revert Q. generalize (mvec I w). clear. intros y Q. destruct w, z, y, l. unfold vdot, vadd in *; cbn in *. lra. }
  rewrite EV, EW. unfold w'. fold z. generalize (1 / 2 * m * vdot v v) (vdot p v') (vdot p (vscale (1/m) p)) (vdot w (mvec I w)). clear. intros. destruct l, w, z; unfold vdot, vadd; cbn. field.
Qed.
Lemma lsum_diff (f g : body -> body -> R) (h : nat -> R) : forall bs bs' n, length bs' = length bs ->
  (forall k b, nth_error bs k = Some b -> exists b', nth_error bs' k = Some b' /\ f b b' <= g b b' + h (n + k)%nat) ->
  lsum (map (fun p => f (fst p) (snd p)) (combine bs bs')) <= lsum (map (fun p => g (fst p) (snd p)) (combine bs bs')) + rsum (length bs) (fun k => h (n + k)%nat).
Proof.
  intros bs. induction bs as [|b bs IH]; intros bs' n HL H; [cbn; lra|]. destruct bs' as [|b' bs']; [discriminate|].
  cbn [combine map lsum fold_right fst snd]. destruct (H 0%nat b eq_refl) as (b'' & E & HF). cbn in E. assert (b'' = b') by congruence. subst b''.
  assert (IH' := IH bs' (Datatypes.S n) ltac:(cbn in HL; lia)). 
  assert (IH'' := IH' ltac:(intros k b0 Hk; destruct (H (Datatypes.S k) b0 Hk) as (b1 & E1 & F1); exists b1; split; [exact E1|]; replace (Datatypes.S n + k)%nat with (n + Datatypes.S k)%nat by lia; exact F1)).
  cbn [length]. change (Datatypes.S (length bs)) with (1 + length bs)%nat. rewrite (rsum_add 1 (length bs)). cbn [rsum]. rewrite Nat.add_0_r in *. unfold lsum in IH''.
  rewrite (rsum_ext (length bs) (fun k => h (Datatypes.S n + k)%nat) (fun i => h (n + (1 + i))%nat)) in IH'' by (intros; f_equal; lia). lra.
Qed.

Lemma rsum_quad n f : rsum (4 * n) f = rsum n (fun k => f (4 * k)%nat + f (4 * k + 1)%nat + f (4 * k + 2)%nat + f (4 * k + 3)%nat).
Proof.
  induction n as [|n IH]; [reflexivity|]. replace (4 * Datatypes.S n)%nat with (4 * n + 4)%nat by lia. rewrite rsum_add, IH. cbn [rsum]. rewrite Nat.add_0_r. ring.
Qed.
(** Contacts take energy out of the system, they never add any: with neither restitution nor stabilisation and with
    fixed bodies at rest, the kinetic energy after a step with converged multipliers (at the pose before it) is at most
    the one that external forces alone would have produced. *)
Theorem C128_energy solver cd dt e e' : cd_ok cd -> step_with solver cd dt e = Some e' -> bodies_indexed e -> e_hinges e = [] -> e_contacts e' <> [] ->
  masses_positive (e_bodies e) -> (forall key i, lib_get (e_lib e) key = Some i -> 0 <= vx (i_mu i)) ->
  (forall b, In b (e_bodies e) -> b_fixed b = true -> b_v b = vzero /\ b_w b = vzero) ->
  p_use_bounce (e_params e) = false -> p_use_pre (e_params e) = false ->
  exists P, posed_contacts cd dt e = Some P /\ let x := hd vzeros (solver (e_params e) [P]) in
  forall r, (forall i, 0 < r i) -> stationary (4 * length (e_contacts e')) (gs_sweep P) r x ->
  lsum (map (fun bb => energy_at (fst bb) (b_v (snd bb)) (b_w (snd bb))) (combine (e_bodies e) (e_bodies e'))) <=
  lsum (map (fun b => energy_at b (free_velocity dt b) (free_spin dt b)) (e_bodies e)).
Proof.
  intros Hcd H HI Hh Hc HM Hmu HFx HB0 HP0. destruct (step_core _ _ _ _ _ Hcd H HI Hh Hc) as (P & mu & W & u' & HPo & EP & EW & HBd & HR). cbv zeta in EP, HBd, HR.
  exists P. split; [exact HPo|]. cbv zeta. set (x := hd vzeros (solver (e_params e) [P])) in *. intros r Hr HS.
  assert (EN : pN P = (6 * length (e_bodies e))%nat) by (rewrite EP; reflexivity). assert (EWJ : pWJT P = mat_WJT (6 * length (e_bodies e)) W (pJ P)) by (rewrite EP at 1; reflexivity).
  assert (EB : pB P = 4%nat) by (rewrite EP; reflexivity). assert (EK : pK P = length (e_contacts e')) by (rewrite EP; reflexivity).
  set (N := (6 * length (e_bodies e))%nat) in *. set (K := length (e_contacts e')) in *.
  assert (HWork : rsum (4 * K) (fun i => x i * mdotv N (pJ P) u' i) <= 0).
  { rewrite rsum_quad. apply Rle_trans with (rsum K (fun _ => 0)); [apply rsum_le|rewrite rsum_zero; [lra|auto]]. intros k Hk.
    destruct (nth_error (e_contacts e') k) as [c|] eqn:Ek; [|apply nth_error_None in Ek; unfold K in Hk; lia].
    destruct (HR k c Ek) as (A & B & A' & B' & s & t & n & i & _ & _ & _ & _ & _ & H6 & H7 & H8 & H9 & H10 & H11).
    assert (Hm : 0 <= mu k). { rewrite H7. unfold get_interaction in H6. destruct (lib_get (e_lib e) (pair_key (b_material A) (b_material B))) eqn:E; [assert (i0 = i) by congruence; subst|]; eapply Hmu; eauto. }
    assert (HQ := contact_block_ok K (pN P) (pJ P) (pWJT P) (pb P) mu r x k Hk (fun i _ => Hr i) Hm). cbv zeta in HQ.
    assert (EP' : contact_problem K (pN P) (pJ P) (pWJT P) (pb P) mu prox_sphere = P) by (rewrite EN, EWJ; symmetry; exact EP). rewrite EP' in HQ.
    assert (HBk : block_ok P r x k) by (apply (gs_stationary P r x); rewrite ?EB, ?EK; auto).
    apply HQ in HBk. destruct HBk as [(_ & _ & HN) HD].
    unfold bounce, push_out in H9. rewrite HB0, HP0 in H9. cbn [andb] in H9. rewrite H9 in HN.
    apply dissipates_work in HD; [|apply Hr..]. rewrite H10 in HD. unfold vdot, friction_of, normal_of in HD, HN; cbn [vx vy vz] in HD. rewrite Rmult_0_l, !Rplus_0_r in HN.
    lra. }
  assert (HPair : rsum (4 * K) (fun i => x i * mdotv N (pJ P) u' i) = rsum (length (e_bodies e)) (fun k => vdot (read3 (impulse P x) (6 * k)) (read3 u' (6 * k)) + vdot (read3 (impulse P x) (6 * k + 3)) (read3 u' (6 * k + 3)))).
  { assert (G := gen_impulse_pairing (4 * K) N (pJ P) x u'). rewrite <- G. unfold N. rewrite rsum_six. apply rsum_ext. intros k _.
    rewrite <- (rsum6_blocks (impulse P x) u' k). apply rsum_ext. intros i _. f_equal. unfold impulse, gen_impulse. rewrite EB, EK. reflexivity. }
  assert (EL : length (e_bodies e') = length (e_bodies e)) by (apply (C49_fixed_step _ _ _ _ _ Hcd H)).
  assert (HQ := lsum_diff (fun b b' => energy_at b (b_v b') (b_w b')) (fun b _ => energy_at b (free_velocity dt b) (free_spin dt b))
     (fun k => vdot (read3 (impulse P x) (6 * k)) (read3 u' (6 * k)) + vdot (read3 (impulse P x) (6 * k + 3)) (read3 u' (6 * k + 3))) (e_bodies e) (e_bodies e') 0%nat EL).
  cbn [Nat.add] in HQ. rewrite <- HPair in HQ.
  replace (map (fun p : body * body => energy_at (fst p) (free_velocity dt (fst p)) (free_spin dt (fst p))) (combine (e_bodies e) (e_bodies e')))
    with (map (fun b => energy_at b (free_velocity dt b) (free_spin dt b)) (e_bodies e)) in HQ.
  2:{ clear - EL. revert EL. generalize (e_bodies e'). induction (e_bodies e) as [|b bs IH]; intros [|b' bs'] EL; cbn in *; try lia; auto. f_equal. apply IH. lia. }
  eapply Rle_trans; [apply HQ|lra]. clear HQ.
  intros k b Hk. destruct (HBd k b Hk) as (b' & Hk' & E1 & E2 & HFix & HFree). exists b'. split; [auto|]. rewrite E1, E2.
  unfold energy_at. destruct (b_fixed b) eqn:Ef.
  - destruct (HFx b (nth_error_In _ _ Hk) Ef) as [V0 W0]. destruct (HFix eq_refl) as (_ & _ & SV & SW).
    replace (b_v b') with vzero by congruence. replace (b_w b') with vzero by congruence. destruct (read3 (impulse P x) (6 * k)), (read3 (impulse P x) (6 * k + 3)). unfold vdot, vzero; cbn. lra.
  - destruct (HFree eq_refl) as [EV EWb]. destruct (HM b (nth_error_In _ _ Hk) Ef) as (M0 & I1 & I2 & I3).
    assert (II := C60_inverse (q_to_matrix (b_q b)) (b_inertia b) (proj1 (q_to_matrix_rotation _)) ltac:(lra) ltac:(lra) ltac:(lra)). destruct II as [II _].
    assert (PI := inertia_psd (q_to_matrix (b_q b)) (mkV (1 / vx (b_inertia b)) (1 / vy (b_inertia b)) (1 / vz (b_inertia b))) (read3 (impulse P x) (6 * k + 3)) (proj1 (q_to_matrix_rotation _))
       ltac:(cbn; apply Rdiv_lt_0_compat; lra) ltac:(cbn; apply Rdiv_lt_0_compat; lra) ltac:(cbn; apply Rdiv_lt_0_compat; lra)).
    assert (SI := proj2 (C60_tensor (q_to_matrix (b_q b)) (b_inertia b))). assert (SI' := proj2 (C60_tensor (q_to_matrix (b_q b)) (mkV (1 / vx (b_inertia b)) (1 / vy (b_inertia b)) (1 / vz (b_inertia b))))).
    rewrite ext_force_spec in EV, EWb. cbn [fst snd] in EV, EWb. rewrite <- !tensor_eq. unfold inv_inertia_world in EWb.
    set (I := update_inertia_tensor (q_to_matrix (b_q b)) (b_inertia b)) in *. set (I' := update_inertia_tensor (q_to_matrix (b_q b)) (mkV _ _ _)) in *.
    assert (FV : b_v b' = vadd (free_velocity dt b) (vscale (1 / b_mass b) (read3 (impulse P x) (6 * k)))).
    { rewrite EV. unfold free_velocity. generalize (read3 (impulse P x) (6 * k)) (b_v b) (net_force b). clear - M0. intros a b0 c. destruct a, b0, c. unfold vadd, vscale; cbn. f_equal; field; lra. }
    assert (FW : b_w b' = vadd (free_spin dt b) (mvec I' (read3 (impulse P x) (6 * k + 3)))).
    { rewrite EWb. unfold free_spin. rewrite <- !tensor_eq. fold I. unfold vinv. fold I'. generalize (read3 (impulse P x) (6 * k + 3)) (b_w b) (net_torque I b). clearbody I'. clear. intros a b0 c. destruct I', a, b0, c. unfold vadd, vscale, mvec, vdot; cbn. f_equal; ring. }
    rewrite FV, FW. assert (ES := energy_shift (b_mass b) I I' (free_velocity dt b) (free_spin dt b) (read3 (impulse P x) (6 * k)) (read3 (impulse P x) (6 * k + 3)) ltac:(lra) II SI SI'). cbv zeta in ES. rewrite ES.
    assert (0 <= vdot (read3 (impulse P x) (6 * k)) (vscale (1 / b_mass b) (read3 (impulse P x) (6 * k)))).
    { generalize (read3 (impulse P x) (6 * k)). intros [a1 a2 a3]. unfold vdot, vscale; cbn. assert (0 < 1 / b_mass b) by (apply Rdiv_lt_0_compat; lra). assert (0 <= 1 / b_mass b * (a1 * a1 + a2 * a2 + a3 * a3)) by (apply Rmult_le_pos; nra). lra. }
    lra.
Qed.
