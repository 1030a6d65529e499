(** Post-stabilisation of the rigid body stepper: C131. *)
From Verif Require Import Base QuatModel VecModel BvhModel GridModel VolModel VecProofs SolverModel SolverSpec SolverProofs ProxModel ProxSpec ProxProofs QuatProofs QuatMatProofs RotProofs
  BvhSpec RigidTypes RigidSpec CollModel StepModel StepProofs StepProofs2 ReadySpec ReadyProofs ConSpec ConProofs ConProofs2 FrameProofs Prop_Step Prop_Constraints Prop_Contacts LawSpec LawProofs LawProofs2 Prop_Law Prop_Law3.
Open Scope R_scope.

(** ** vocabulary *)
(** first order rotation of the orientation q by the small rotation vector th, made a unit quaternion *)
Definition turned (th : vec3) (q : quat) : quat := q_unit (qadd q (qscale (1 / 2) (q_prod (q_from_vector3 th) q))).
(** relative displacement, at the point p, of body B with respect to body A, when the bodies move by dA, dB and turn by tA, tB *)
Definition shift (A B : body) (dA tA dB tB p : vec3) : vec3 :=
  vsub (point_velocity (b_r B) dB tB p) (point_velocity (b_r A) dA tA p).
(** the penetration post-stabilisation works against: gaps below - min_gap count, others do not *)
Definition depth (P : params) (c : contact) : R := if Rltb (c_g c) (- p_min_gap P) then c_g c else 0.

(** ** what a step with post-stabilisation computes *)
Lemma step_post solver cd dt e e' : cd_ok cd -> step_with solver cd dt e = Some e' -> p_use_post (e_params e) = true -> e_contacts e' <> [] ->
  exists st e1 C u, copy_from_engine e = Some st /\ cd e = Some e1 /\ contacts_initialize dt st e1 = Some C /\ e_contacts e1 = e_contacts e' /\
  let Q := post_problem (e_params e) (e_contacts e') C in let x := position_update dt (e_bodies e1) u (s_x st) in
  e' = set_bodies e1 (copy_to_bodies (if any_nonzero (4 * pK Q) (pb Q) then
         match solver (e_params e) [Q] with sol :: _ => position_update 1 (e_bodies e1) (WJTx Q sol) x | [] => x end else x) u (e_bodies e1)).
Proof.
  intros Hcd H HP Hc. unfold step_with in H. destruct (copy_from_engine e) as [st|] eqn:Est; [|discriminate]. destruct (cd e) as [e1|] eqn:Ecd; [|discriminate].
  destruct (Hcd _ _ Ecd) as (_ & _ & _ & _ & _ & EP & _).
  destruct (e_contacts e1) as [|c0 cs0] eqn:Ec.
  { destruct (match e_hinges e1 with [] => _ | _ => _ end) as [hp|]; [|discriminate]. cbv zeta in H. apply some_eq in H. subst e'. cbn [e_contacts set_bodies] in Hc. congruence. }
  destruct (contacts_initialize dt st e1) as [C|] eqn:EC; [|discriminate].
  destruct (match e_hinges e1 with [] => _ | _ => _ end) as [hp|]; [|discriminate]. cbv zeta in H. rewrite EP, HP in H. apply some_eq in H.
  assert (Ec' : e_contacts e' = c0 :: cs0) by (subst e'; cbn [e_contacts set_bodies]; auto).
  eexists. eexists. exists C. eexists. split; [reflexivity|]. split; [reflexivity|]. split; [exact EC|]. split; [congruence|]. cbv zeta. rewrite Ec'. symmetry. exact H.
Qed.
Lemma post_error_row P cs k c : nth_error cs k = Some c -> post_error P cs (4 * k)%nat = depth P c.
Proof.
  intros Hk. unfold post_error, depth.
  assert (U := upd_fold (fun _ c => Rltb (c_g c) (- p_min_gap P)) c_g (enum cs) (enum_nodup cs) vzeros (4 * k)). cbv zeta in U. destruct U as [U _].
  etransitivity; [exact (U k c (proj2 (enum_in _ _ _) Hk) eq_refl)|reflexivity].
Qed.
Lemma post_error_other P cs j : (forall k, (k < length cs)%nat -> j <> (4 * k)%nat) -> post_error P cs j = 0.
Proof.
  intros Hj. unfold post_error.
  assert (U := upd_fold (fun _ c => Rltb (c_g c) (- p_min_gap P)) c_g (enum cs) (enum_nodup cs) vzeros j). cbv zeta in U. destruct U as [_ U].
  etransitivity; [apply U|reflexivity]. intros k c Hin. apply Hj. apply enum_in in Hin. apply nth_error_Some. congruence.
Qed.
Lemma any_nonzero_spec n g : any_nonzero n g = true <-> exists i, (i < n)%nat /\ g i <> 0.
Proof.
  unfold any_nonzero. rewrite existsb_exists. split.
  - intros (i & Hi & H). exists i. apply in_seq in Hi. split; [lia|]. destruct (Reqb_spec (g i) 0); [discriminate|auto].
  - intros (i & Hi & H). exists i. split; [apply in_seq; lia|]. destruct (Reqb_spec (g i) 0); [contradiction|auto].
Qed.
Lemma turned_moved d th r q : moved 1 d th r q = (vadd r d, turned th q).
Proof. unfold moved, turned. f_equal; [destruct r, d; unfold vadd, vscale; cbn; f_equal; ring|]. do 3 f_equal. destruct (q_prod (q_from_vector3 th) q). unfold qscale; cbn. f_equal; ring. Qed.

Lemma turned_scale dt w q : q_unit (qadd q (qscale (1 / 2) (qscale dt (q_prod (q_from_vector3 w) q)))) = turned (vscale dt w) q.
Proof. unfold turned. do 3 f_equal. destruct w as [w1 w2 w3], q as [q1 q2 q3 q4]. unfold qscale, q_prod, q_from_vector3, vscale, vdot, vcross, vadd, qvec. simpl. f_equal; ring. Qed.

(** * C131 *)
(** Without a contact deeper than min_gap the step moves the bodies with their new velocities, as if post-stabilisation were off. *)
Theorem C131_nothing_to_do solver cd dt e e' : cd_ok cd -> step_with solver cd dt e = Some e' -> p_use_post (e_params e) = true ->
  (forall c, In c (e_contacts e') -> - p_min_gap (e_params e) <= c_g c) ->
  forall k b, nth_error (e_bodies e) k = Some b -> b_fixed b = false -> exists b', nth_error (e_bodies e') k = Some b' /\
  b_r b' = vadd (b_r b) (vscale dt (b_v b')) /\ b_q b' = turned (vscale dt (b_w b')) (b_q b).
Proof.
  intros Hcd H HP Hg k b Hk Hf.
  assert (G : forall st e1 u, copy_from_engine e = Some st -> cd e = Some e1 -> e' = set_bodies e1 (copy_to_bodies (position_update dt (e_bodies e1) u (s_x st)) u (e_bodies e1)) ->
    exists b', nth_error (e_bodies e') k = Some b' /\ b_r b' = vadd (b_r b) (vscale dt (b_v b')) /\ b_q b' = turned (vscale dt (b_w b')) (b_q b)).
  { intros st e1 u Hst Hcd1 He'. destruct (Hcd _ _ Hcd1) as (HB & _). destruct (Forall2_nth _ _ _ _ _ HB Hk) as (b1 & Hk1 & [tr ->]).
    destruct (copy_from_eq _ _ Hst) as (Ex & _). destruct (position_vector_block _ _ _ Hk) as [Er Eq].
    rewrite He'. cbn [e_bodies set_bodies]. rewrite copy_nth, Hk1. cbn [option_map]. eexists. split; [reflexivity|]. cbn [b_r b_q b_v b_w with_pose with_vel].
    destruct (position_update_block dt (e_bodies e1) u (s_x st) k _ Hk1) as [_ PM]. specialize (PM Hf). rewrite Ex, Er, Eq in PM. unfold moved in PM.
    assert (Q1 := f_equal fst PM). assert (Q2 := f_equal snd PM). cbn [fst snd] in Q1, Q2. rewrite Ex, Q1, Q2. split; [reflexivity|].
    apply turned_scale. }
  destruct (e_contacts e') as [|c0 cs0] eqn:Ec.
  - destruct (step_decompose _ _ _ _ _ Hcd H) as (tr & Hst & Hcd1 & HC1 & _ & _ & _ & _ & HN & _ & He').
    assert (Ec1 : e_contacts (t_engine tr) = []) by (rewrite <- Ec, He'; reflexivity). rewrite (HN (or_intror (HC1 Ec1))) in He'. eapply G; eauto.
  - destruct (step_post _ _ _ _ _ Hcd H HP) as (st & e1 & C & u & Hst & Hcd1 & EC & Ec1 & He'); [congruence|]. cbv zeta in He'.
    destruct (any_nonzero _ _) eqn:EA in He'; [|eapply G; eauto]. exfalso. apply any_nonzero_spec in EA as (i & Hi & Hn). apply Hn. cbn [pb post_problem].
    destruct (contacts_parts _ _ _ _ EC) as (J & g & eps & mu & _ & _ & _ & _ & _ & EK & _). 
    destruct (Nat.eq_dec (i mod 4) 0) as [E|E].
    + assert (Ei : i = (4 * (i / 4))%nat) by (assert (D := Nat.div_mod i 4 ltac:(lia)); lia). rewrite Ei. destruct (nth_error (e_contacts e') (i / 4)) as [c|] eqn:Ek.
      * rewrite (post_error_row _ _ _ _ Ek). unfold depth. destruct (Rltb_spec (c_g c) (- p_min_gap (e_params e))) as [L|]; [|reflexivity]. rewrite Ec in Ek.
        assert (L' := Hg c (nth_error_In _ _ Ek)). lra.
      * apply post_error_other. intros k0 Hk0 E0. assert (k0 = (i / 4)%nat) by lia. apply nth_error_None in Ek. lia.
    + apply post_error_other. intros k0 _ E0. apply E. rewrite E0, Nat.mul_comm. apply Nat.mod_mul. lia.
Qed.
(** With a contact deeper than min_gap every free body is moved by d k and turned by th k after its ordinary motion, fixed
    bodies are not; velocities are not touched (they are those the ordinary motion used).  The residual of the multipliers
    the solver returned for the projection problem is, in the normal row of each contact, the relative displacement plus the
    penetration. *)
Theorem C131_residual solver cd dt e e' : cd_ok cd -> (forall S ps, length (solver S ps) = length ps) ->
  step_with solver cd dt e = Some e' -> bodies_indexed e -> p_use_post (e_params e) = true -> 0 <= p_min_gap (e_params e) ->
  (exists c, In c (e_contacts e') /\ c_g c < - p_min_gap (e_params e)) ->
  exists C (d th : nat -> vec3), posed_contacts cd dt e = Some C /\
  let Q := post_problem (e_params e) (e_contacts e') C in let x := hd vzeros (solver (e_params e) [Q]) in
  (forall k b, nth_error (e_bodies e) k = Some b -> exists b', nth_error (e_bodies e') k = Some b' /\
     (b_fixed b = true -> same_dynamic b b') /\
     (b_fixed b = false -> b_r b' = vadd (vadd (b_r b) (vscale dt (b_v b'))) (d k) /\ b_q b' = turned (th k) (turned (vscale dt (b_w b')) (b_q b)))) /\
  forall k c, nth_error (e_contacts e') k = Some c -> exists A B s t n,
    find_body e (c_A c) = Some A /\ find_body e (c_B c) = Some B /\ frame_along (c_n c) s t n /\
    normal_of (residual Q x) k = vdot n (shift A B (d (b_idx A)) (th (b_idx A)) (d (b_idx B)) (th (b_idx B)) (c_p c)) + depth (e_params e) c.
Proof.
  intros Hcd HS H HI HP Hmg (c0 & Hc0 & Hg0).
  assert (Hne : e_contacts e' <> []) by (intros E; rewrite E in Hc0; destruct Hc0).
  destruct (step_post _ _ _ _ _ Hcd H HP Hne) as (st & e1 & C & u & Hst & Hcd1 & EC & Ec1 & He'). cbv zeta in He'.
  destruct (contacts_parts _ _ _ _ EC) as (J & g & eps & mu & EJ & _ & _ & _ & _ & EK & EN & EPJ & _).
  set (Q := post_problem (e_params e) (e_contacts e') C) in *. set (x := hd vzeros (solver (e_params e) [Q])).
  assert (EA : any_nonzero (4 * pK Q) (pb Q) = true).
  { apply any_nonzero_spec. destruct (In_nth_error _ _ Hc0) as [k Hk]. exists (4 * k)%nat. assert (k < length (e_contacts e'))%nat by (apply nth_error_Some; congruence). split.
    - unfold Q. cbn [pK post_problem]. rewrite EK, Ec1. lia.
    - unfold Q. cbn [pb post_problem]. rewrite (post_error_row _ _ _ _ Hk). unfold depth. destruct (Rltb_spec (c_g c0) (- p_min_gap (e_params e))); lra. }
  rewrite EA in He'.
  assert (Ex : exists l, solver (e_params e) [Q] = x :: l). { unfold x. assert (L := HS (e_params e) [Q]). destruct (solver (e_params e) [Q]) as [|y l]; [discriminate|]. exists l. reflexivity. }
  destruct Ex as [l El]. rewrite El in He'. set (D := WJTx Q x) in *.
  exists C, (fun k => read3 D (6 * k)), (fun k => read3 D (6 * k + 3)). split. { unfold posed_contacts. rewrite Hst, Hcd1. exact EC. } cbv zeta. fold Q. fold x.
  destruct (Hcd _ _ Hcd1) as (HB & _). split.
  - intros k b Hk. destruct (C49_fixed_step _ _ _ _ _ Hcd H) as [HL49 H49]. 
    destruct (Forall2_nth _ _ _ _ _ HB Hk) as (b1 & Hk1 & [tr ->]). destruct (copy_from_eq _ _ Hst) as (Ex & _). destruct (position_vector_block _ _ _ Hk) as [Er Eq].
    assert (EB' : nth_error (e_bodies e') k = Some (with_pose (with_vel (with_bvh b tr) (read3 u (6 * k)) (read3 u (6 * k + 3))) (read3 (position_update 1 (e_bodies e1) D (position_update dt (e_bodies e1) u (s_x st))) (7 * k)) (read4 (position_update 1 (e_bodies e1) D (position_update dt (e_bodies e1) u (s_x st))) (7 * k + 3)))).
    { rewrite He' at 1. cbn [e_bodies set_bodies]. rewrite copy_nth, Hk1. reflexivity. }
    eexists. split; [exact EB'|]. split.
    + intros Hf. destruct (step_decompose _ _ _ _ _ Hcd H) as (t & HF). destruct (step_body _ _ _ _ _ _ _ _ Hcd HF Hk) as (b' & Hk' & _ & HX & _). rewrite EB' in Hk'. apply some_eq in Hk'. rewrite Hk'. auto.
    + intros Hf. cbn [b_r b_q b_v b_w with_pose with_vel].
      destruct (position_update_block dt (e_bodies e1) u (s_x st) k _ Hk1) as [_ PM]. specialize (PM Hf). rewrite Ex, Er, Eq in PM.
      destruct (position_update_block 1 (e_bodies e1) D (position_update dt (e_bodies e1) u (get_position_vector (e_bodies e))) k _ Hk1) as [_ PM2]. specialize (PM2 Hf).
      assert (Q1 := f_equal fst PM). assert (Q2 := f_equal snd PM). unfold moved in Q1, Q2. cbn [fst snd] in Q1, Q2. rewrite Q1, Q2 in PM2. rewrite turned_moved in PM2.
      assert (R1 := f_equal fst PM2). assert (R2 := f_equal snd PM2). cbn [fst snd] in R1, R2. rewrite Ex, R1, R2. split; [reflexivity|].
      f_equal. apply turned_scale.
  - intros k c Hk. assert (HI1 := indexed_bvh _ _ HB HI). rewrite <- Ec1 in Hk.
    destruct (contact_row e1 J k c HI1 EJ Hk) as (A1 & B1 & s & t & n & EA1 & EB1 & EO & Hrow).
    destruct (find_bvh _ _ _ _ HB EA1) as (A & ta & EA' & ->). destruct (find_bvh _ _ _ _ HB EB1) as (B & tb & EB' & ->).
    exists A, B, s, t, n. split; [auto|]. split; [auto|]. split; [apply orthonormal_some; auto|].
    unfold normal_of, residual, delassus. fold D. unfold Q at 1 2 3. cbn [pN pJ pb post_problem]. rewrite EN, EPJ. destruct (Hrow D) as (R0 & _). cbv zeta in R0. rewrite R0.
    rewrite Ec1 in Hk. rewrite (post_error_row _ _ _ _ Hk). reflexivity.
Qed.
(** Converged multipliers (a further sweep leaves them alone): every contact is pushed apart by at least its penetration, and
    no further where a projection force acts; there is no force along the tangents. *)
Theorem C131_separates solver cd dt e e' : cd_ok cd -> (forall S ps, length (solver S ps) = length ps) ->
  step_with solver cd dt e = Some e' -> bodies_indexed e -> p_use_post (e_params e) = true -> 0 <= p_min_gap (e_params e) ->
  (exists c, In c (e_contacts e') /\ c_g c < - p_min_gap (e_params e)) ->
  exists C (d th : nat -> vec3), posed_contacts cd dt e = Some C /\
  let Q := post_problem (e_params e) (e_contacts e') C in let x := hd vzeros (solver (e_params e) [Q]) in
  (forall k b, nth_error (e_bodies e) k = Some b -> exists b', nth_error (e_bodies e') k = Some b' /\
     (b_fixed b = true -> same_dynamic b b') /\
     (b_fixed b = false -> b_r b' = vadd (vadd (b_r b) (vscale dt (b_v b'))) (d k) /\ b_q b' = turned (th k) (turned (vscale dt (b_w b')) (b_q b)))) /\
  forall r, (forall i, 0 < r i) -> stationary (4 * length (e_contacts e')) (gs_sweep Q) r x ->
  forall k c, nth_error (e_contacts e') k = Some c -> exists A B s t n,
    find_body e (c_A c) = Some A /\ find_body e (c_B c) = Some B /\ frame_along (c_n c) s t n /\ friction_of x k = vzero /\
    signorini (normal_of x k) (vdot n (shift A B (d (b_idx A)) (th (b_idx A)) (d (b_idx B)) (th (b_idx B)) (c_p c)) + depth (e_params e) c).
Proof.
  intros Hcd HS H HI HP Hmg Hex. destruct (C131_residual _ _ _ _ _ Hcd HS H HI HP Hmg Hex) as (C & d & th & HC & HBd & HR). cbv zeta in HBd, HR.
  exists C, d, th. split; [exact HC|]. cbv zeta. set (Q := post_problem (e_params e) (e_contacts e') C) in *. set (x := hd vzeros (solver (e_params e) [Q])) in *.
  split; [exact HBd|]. intros r Hr Hst k c Hk. destruct (HR k c Hk) as (A & B & s & t & n & H1 & H2 & H3 & H4). exists A, B, s, t, n. split; [auto|]. split; [auto|]. split; [auto|].
  rewrite <- H4. assert (Hlt : (k < length (e_contacts e'))%nat) by (apply nth_error_Some; congruence).
  assert (EK : pK Q = length (e_contacts e')).
  { unfold Q. cbn [pK post_problem]. unfold posed_contacts in HC. destruct (copy_from_engine e) as [st|]; [|discriminate]. destruct (cd e) as [e1|] eqn:Ecd; [|discriminate].
    destruct (contacts_parts _ _ _ _ HC) as (J & g & eps & mu & _ & _ & _ & _ & _ & EKC & _). rewrite EKC. destruct (step_decompose _ _ _ _ _ Hcd H) as (tr & _ & Hcd1 & _ & _ & _ & _ & _ & _ & _ & He').
    assert (t_engine tr = e1) by congruence. rewrite He'. cbn [e_contacts set_bodies]. congruence. }
  assert (HBk : block_ok Q r x k). { apply (gs_stationary Q r x); [cbn; lia|rewrite EK; exact Hst|rewrite EK; exact Hlt]. }
  unfold block_ok in HBk. assert (B0 := HBk 0%nat ltac:(cbn; lia)). assert (B1 := HBk 1%nat ltac:(cbn; lia)). assert (B2 := HBk 2%nat ltac:(cbn; lia)). assert (B3 := HBk 3%nat ltac:(cbn; lia)).
  change (pB Q) with 4%nat in *. change (pprox Q) with post_prox in *. unfold post_prox in *. cbv beta iota zeta in *. rewrite !Nat.add_0_r in *.
  split. { unfold friction_of, vzero. f_equal; auto. }
  unfold signorini, normal_of. set (z := x (4 * k)%nat) in *. set (a := residual Q x (4 * k)%nat) in *. assert (Hrk := Hr (4 * k)%nat). set (rk := r (4 * k)%nat) in *. clearbody z a rk.
  revert B0. unfold Rmax. destruct (Rle_dec 0 (z - rk * a)) as [L|L]; intros B0.
  - assert (a = 0) by nra. subst a. lra.
  - subst z. assert (0 < a) by nra. lra.
Qed.

(** ** the hypotheses are met: a body one unit deep in the ground, post-stabilisation on *)
Definition pcon : contact := mkContact [103%nat] [97%nat] (mkV 0 0 (-1/2)) (mkV 0 0 1) (-1).
Definition pparams : params := mkParams (1/100) 200 false false true (1/2) (1/1000) (1/100) (1/1000) (1/10000) (7/10) (13/10) (1/100) 8 0 255 3 (1/10) 64.
Definition pengine : engine := mkEngine [gB; fA 1; fB 1] [] [] [] [pcon] library_init pparams true.
Lemma p_posed dt : posed_contacts keep dt pengine = posed_contacts keep dt (fengine 1 [fcon] []).
Proof. reflexivity. Qed.
Example C131_nonvacuous : exists e e' dt C x, let solver := fun (_ : params) (ps : list problem) => map (fun _ => x) ps in
  cd_ok keep /\ (forall S ps, length (solver S ps) = length ps) /\ step_with solver keep dt e = Some e' /\ bodies_indexed e /\ p_use_post (e_params e) = true /\
  0 <= p_min_gap (e_params e) /\ (exists c, In c (e_contacts e') /\ c_g c < - p_min_gap (e_params e)) /\ posed_contacts keep dt e = Some C /\
  (forall r, (forall i, 0 < r i) -> stationary (4 * length (e_contacts e')) (gs_sweep (post_problem (e_params e) (e_contacts e') C)) r x) /\ normal_of x 0 = 1.
Proof.
  destruct (f_problem 1 [] (1/100)) as (P & HP & EB & EK & EN & HI & _). destruct (f_contacts 1 []) as (J & EJ & J0). destruct (f_state 1 [fcon] []) as (st & Est & _ & _ & EW). assert (HW := f_W 1 [] _ EW).
  assert (HP' := HP). unfold posed_contacts in HP'. rewrite Est in HP'. change (keep (fengine 1 [fcon] [])) with (Some (fengine 1 [fcon] [])) in HP'. cbv beta iota in HP'.
  destruct (contacts_parts _ _ _ _ HP') as (J1 & g & eps & mu & EJ1 & _ & _ & _ & _ & _ & _ & EPJ & _ & EPP & _). assert (EJJ : J1 = J) by congruence. rewrite EJJ in *. clear EJJ.
  assert (HWx : forall j, WJTx P (push 1) j = if Nat.eqb j 8 then 1 else 0).
  { intros j. rewrite (WJTx_impulse P (s_W st) (push 1) j). 2:{ rewrite EN, EPJ. rewrite EPP. reflexivity. }
    rewrite EN. transitivity (mdotv 18 (s_W st) (fun l => if Nat.eqb l 8 then 1 else if Nat.eqb l 2 then - 1 else 0) j); [apply mdotv_ext; intros; apply HI|].
    destruct (HW j) as [W2 W8]. unfold mdotv. cbn [rsum Nat.eqb]. rewrite W2, W8. destruct (Nat.eqb j 8); ring. }
  assert (Hd : delassus P (push 1) 0%nat = 1).
  { unfold delassus. rewrite EN, EPJ. unfold mdotv. cbn [rsum]. rewrite !HWx, !J0. cbn [Nat.eqb]. ring. }
  assert (HS : exists e', step_with (fun (_ : params) (ps : list problem) => map (fun _ => push 1) ps) keep (1/100) pengine = Some e' /\ e_contacts e' = [pcon]).
  { assert (HQ := p_posed (1/100)). rewrite HP in HQ. unfold posed_contacts in HQ. unfold step_with. destruct (copy_from_engine pengine) as [st1|] eqn:Est1; [|discriminate].
    change (keep pengine) with (Some pengine) in *. cbv beta iota in *. change (e_contacts pengine) with [pcon]. change (e_hinges pengine) with (@nil hinge). cbv beta iota. rewrite HQ. cbv beta iota zeta. eexists. split; [reflexivity|]. reflexivity. }
  destruct HS as (e' & HS & EC). exists pengine, e', (1/100), P, (push 1). cbv zeta. split; [apply keep_ok|]. split; [intros; apply map_length|]. split; [exact HS|].
  split. { intros k b H. destruct k as [|[|[|[|k]]]]; cbn in H; try discriminate; apply some_eq in H; subst b; reflexivity. }
  split; [reflexivity|]. split; [cbn; lra|]. split. { exists pcon. rewrite EC. split; [left; reflexivity|cbn; lra]. }
  split; [rewrite p_posed; exact HP|]. split; [|reflexivity]. intros r Hr. rewrite EC.
  set (Q := post_problem (e_params pengine) [pcon] P). assert (EKQ : pK Q = 1%nat) by exact EK.
  assert (G := proj2 (gs_stationary Q r (push 1) ltac:(cbn; lia))). rewrite EKQ in G. apply G. intros k Hk i Hi. change (pB Q) with 4%nat in *. assert (k = 0%nat) by lia. subst k.
  change (pprox Q) with post_prox. unfold post_prox. destruct i as [|i]; [|destruct i as [|[|[|i]]]; [reflexivity..|lia]]. cbn [Nat.mul Nat.add].
  assert (HR : residual Q (push 1) 0%nat = 0).
  { unfold residual. replace (delassus Q (push 1) 0%nat) with (delassus P (push 1) 0%nat).
    2:{ unfold delassus. apply mdotv_ext. intros l _. unfold WJTx. rewrite EB. reflexivity. }
    rewrite Hd. change (pb Q) with (post_error (e_params pengine) [pcon]). rewrite (post_error_row _ [pcon] 0 pcon eq_refl).
    unfold depth. destruct (Rltb_spec (c_g pcon) (- p_min_gap (e_params pengine))) as [|L]; [cbn; ring|cbn in L; lra]. }
  rewrite HR. unfold push; cbn [Nat.eqb]. unfold Rmax. destruct (Rle_dec 0 (1 - r 0%nat * 0)); lra.
Qed.
Print Assumptions C131_nothing_to_do.
Print Assumptions C131_residual.
Print Assumptions C131_separates.
