(** C129: hinges after a step, alone and together with contacts; examples for C126 - C128. *)
From Coq Require Import FunctionalExtensionality Permutation.
From Verif Require Import Base QuatModel VecModel BvhModel GridModel VolModel VecProofs SolverModel SolverSpec SolverProofs ProxModel ProxSpec ProxProofs QuatProofs QuatMatProofs RotProofs
  BvhSpec RigidTypes RigidSpec CollModel StepModel StepProofs StepProofs2 ReadySpec ReadyProofs ConSpec ConProofs ConProofs2 FrameProofs Prop_Step Prop_Constraints Prop_Contacts Prop_Hinges LawSpec LawProofs LawProofs2 Prop_Law Prop_Law2.
Open Scope R_scope.

(** * C129 *)
Lemma hinges_parts dt st e Q : hinges_initialize dt st e = Some Q -> exists J g, hinge_jacobian e = Some J /\ hinge_error dt e = Some g /\
  pB Q = 5%nat /\ pK Q = length (e_hinges e) /\ pN Q = (6 * length (e_bodies e))%nat /\ pJ Q = J /\ pWJT Q = mat_WJT (6 * length (e_bodies e)) (s_W st) J /\ pprox Q = hinge_prox /\
  forall i, pb Q i = mdotv (6 * length (e_bodies e)) J (s_u st) i + mdotv (6 * length (e_bodies e)) J (fun j => dt * s_duext st j) i + g i.
Proof.
  unfold hinges_initialize. destruct (hinge_jacobian e) as [J|]; [|discriminate]. destruct (hinge_error dt e) as [g|]; [|discriminate].
  intros H. apply some_eq in H. subst Q. exists J, g. repeat (split; [reflexivity|]). reflexivity.
Qed.
(** a joint problem is solved when a further sweep changes nothing *)
Lemma hinge_solved Q r x : pB Q = 5%nat -> pprox Q = hinge_prox -> (forall i, 0 < r i) ->
  (stationary (5 * pK Q) (gs_sweep Q) r x <-> forall i, (i < 5 * pK Q)%nat -> residual Q x i = 0).
Proof.
  intros EB EX Hr. assert (G := gs_stationary Q r x ltac:(lia)). rewrite EB in G. rewrite G. unfold block_ok. rewrite EB, EX. unfold hinge_prox. split.
  - intros H i Hi. assert (Hk : (i / 5 < pK Q)%nat) by (apply Nat.div_lt_upper_bound; lia). assert (Hm := Nat.mod_upper_bound i 5 ltac:(lia)).
    assert (E := H (i / 5)%nat Hk (i mod 5)%nat Hm). cbv zeta in E. rewrite <- Nat.div_mod in E by lia. specialize (Hr i).
    apply Rmult_eq_reg_l with (r i); lra.
  - intros H k Hk i Hi. cbv zeta. rewrite H by nia. ring.
Qed.
(** Joints alone: after a step with converged multipliers the two anchor points of every hinge have the same velocity and
    the bodies spin relative to each other about the hinge axis only. *)
Theorem C129_hinges_partial solver cd dt e e' : cd_ok cd -> step_with solver cd dt e = Some e' -> bodies_indexed e -> hinges_indexed e ->
  e_hinges e <> [] -> e_contacts e' = [] -> p_use_pre (e_params e) = false ->
  exists Q, posed_hinges cd dt e = Some Q /\ let x := hd vzeros (solver (e_params e) [Q]) in
  forall r, (forall i, 0 < r i) -> stationary (5 * length (e_hinges e)) (gs_sweep Q) r x ->
  forall k h, nth_error (e_hinges e) k = Some h -> exists sp sc P C P' C',
    h_sockets h = Some (sp, sc) /\ find_body e (sk_body sp) = Some P /\ find_body e (sk_body sc) = Some C /\
    find_body e' (sk_body sp) = Some P' /\ find_body e' (sk_body sc) = Some C' /\
    point_velocity (b_r P) (b_v P') (b_w P') (anchor P sp) = point_velocity (b_r C) (b_v C') (b_w C') (anchor C sc) /\
    exists a, vsub (b_w P') (b_w C') = vscale a (axis_w P sp).
Proof.
  intros Hcd H HI HHi Hh Hc HP0. destruct (step_decompose _ _ _ _ _ Hcd H) as (tr & HF).
  destruct HF as (Hst & Hcd1 & HC1 & _ & _ & HH2 & Hsol & _ & _ & He').
  set (st := t_state tr) in *. set (e1 := t_engine tr) in *.
  destruct (Hcd _ _ Hcd1) as (HB & Eh1 & _ & _ & EL & EP & _).
  assert (Ec : e_contacts e' = e_contacts e1) by (rewrite He'; reflexivity). rewrite Ec in *.
  assert (Ecp := HC1 Hc). destruct (HH2 ltac:(congruence)) as (Q & HQ & Ehp). rewrite Ehp, Ecp in *. cbn [app] in *.
  specialize (Hsol ltac:(discriminate)). rewrite EP in Hsol.
  assert (HI1 := indexed_bvh _ _ HB HI). assert (HHi1 : hinges_indexed e1) by (unfold hinges_indexed; rewrite Eh1; exact HHi).
  assert (HL := Forall2_len _ _ _ HB).
  destruct (copy_from_eq _ _ Hst) as (Ex & Eu & EW & Ed).
  destruct (hinges_parts _ _ _ _ HQ) as (J & g & EJ & Eg & EB & EK & EN & EPJ & EPW & EPX & Epb).
  set (N := (6 * length (e_bodies e1))%nat) in *.
  set (u' := fun j => s_u st j + (dt * s_duext st j + mdotv N (s_W st) (total_impulse (t_pairs tr)) j)) in *.
  exists Q. split. { unfold posed_hinges. fold st in Hst. rewrite Hst, Hcd1. exact HQ. } cbv zeta. set (x := hd vzeros (solver (e_params e) [Q])). intros r Hr HS k h Hk.
  assert (Hres : forall i, (i < 5 * pK Q)%nat -> residual Q x i = 0).
  { apply (hinge_solved Q r x EB EPX Hr). rewrite EK, Eh1. exact HS. }
  assert (HW : forall j, WJTx Q x j = mdotv N (s_W st) (total_impulse (t_pairs tr)) j).
  { intros j. rewrite (WJTx_impulse Q (s_W st) x j) by (rewrite EN, EPJ; exact EPW). rewrite EN. fold N.
    apply mdotv_ext. intros l _. unfold t_pairs, x. rewrite Ecp, Ehp, Hsol. cbn [app combine]. destruct (solver (e_params e) [Q]) as [|x0 xs]; cbn [hd combine total_impulse fold_right fst snd].
    - unfold impulse. apply rsum_zero. intros i _. unfold vzeros. ring.
    - destruct xs; cbn [combine fold_right]; unfold total_impulse; cbn [fold_right fst snd]; ring. }
  assert (G0 : forall i, g i = 0). { unfold hinge_error in Eg. rewrite EP, HP0 in Eg. cbn [negb] in Eg. apply some_eq in Eg. subst g. reflexivity. }
  assert (HJu : forall i, (i < 5 * length (e_hinges e))%nat -> mdotv N J u' i = 0).
  { intros i Hi. rewrite <- (Hres i) by (rewrite EK, Eh1; exact Hi). unfold residual, delassus. rewrite EN, EPJ, Epb, G0. rewrite (mdotv_ext N J (WJTx Q x) _ i (fun j _ => HW j)).
    unfold u'. rewrite (mdotv_plus N J (s_u st)). rewrite (mdotv_plus N J (fun j => dt * s_duext st j)). ring. }
  assert (Hk1 : nth_error (e_hinges e1) k = Some h) by congruence. assert (Hkl : (k < length (e_hinges e))%nat) by (apply nth_error_Some; congruence).
  destruct (C52_hinges e1 J k h HI1 HHi1 EJ Hk1) as (sp & sc & P1 & C1 & t0 & b0 & n0 & Es & EP1 & EC1 & _ & HR1). destruct (HR1 u') as (R3 & _). clear HR1.
  destruct (C52_hinge_axis e1 J k h u' HI1 HHi1 EJ Hk1) as (sp2 & sc2 & P2 & C2 & Es2 & EP2 & EC2 & HA).
  assert (EE : (sp2, sc2) = (sp, sc)) by congruence. injection EE as -> ->. assert (P2 = P1) by congruence. assert (C2 = C1) by congruence. subst P2 C2.
  cbv zeta in R3, HA. fold N in R3, HA.
  destruct (find_bvh _ _ _ _ HB EP1) as (P & ta & EPo & ->). destruct (find_bvh _ _ _ _ HB EC1) as (C & tb & ECo & ->).
  exists sp, sc, P, C. eexists. eexists. do 3 (split; [auto|]).
  split. { rewrite He'. apply map_find_body; eauto. } split. { rewrite He'. apply map_find_body; eauto. }
  cbn [b_v b_w with_pose with_vel]. fold u'.
  change (lin u' (with_bvh P ta)) with (lin u' P). change (ang u' (with_bvh P ta)) with (ang u' P). change (lin u' (with_bvh C tb)) with (lin u' C). change (ang u' (with_bvh C tb)) with (ang u' C).
  split.
  - assert (Z : read3 (mdotv N J u') (5 * k) = vzero). { unfold read3, vzero. rewrite !HJu by lia. reflexivity. }
    rewrite Z in R3. change (vzero = vsub (velocity_at u' P (anchor P sp)) (velocity_at u' C (anchor C sc))) in R3. unfold velocity_at in R3. revert R3.
    generalize (point_velocity (b_r P) (lin u' P) (ang u' P) (anchor P sp)) (point_velocity (b_r C) (lin u' C) (ang u' C) (anchor C sc)).
    intros [a1 a2 a3] [b1 b2 b3] E. unfold vzero, vsub in E; cbn in E. injection E; intros. f_equal; lra.
  - apply HA. split; apply HJu; lia.
Qed.

(** ** a body falling onto the ground, another one falling beside it *)
Definition ftree : tree := mkTree None [].
Definition gB : body := mkBody [103%nat] 0 q_identity (mkV 0 0 (-1)) vzero vzero 1 (mkV 1 1 1) None true [] default_name (Some ftree).
Definition fA (s : R) : body := mkBody [97%nat] 1 q_identity vzero (mkV 0 0 (- s)) vzero 1 (mkV 1 1 1) None false [] default_name (Some ftree).
Definition fB (s : R) : body := mkBody [98%nat] 2 q_identity (mkV 1 0 0) (mkV 0 0 (- s)) vzero 1 (mkV 1 1 1) None false [] default_name (Some ftree).
Definition fcon : contact := mkContact [103%nat] [97%nat] (mkV 0 0 (-1/2)) (mkV 0 0 1) 0.
(** the hinge is at (1/2, 0, 0), its axis along z *)
Definition fhinge : hinge := mkHinge [104%nat] 0 (Some (mkSocket [97%nat] (mkX (mkV (1/2) 0 0) q_identity), mkSocket [98%nat] (mkX (mkV (-1/2) 0 0) q_identity))).
Definition fengine (s : R) (cs : list contact) (hs : list hinge) : engine := mkEngine [gB; fA s; fB s] [] [] hs cs library_init params_init true.
(** a collision detection that leaves the contacts alone *)
Definition keep (e : engine) : option engine := Some (set_bodies e (map (fun b => with_bvh b ftree) (e_bodies e))).
Lemma keep_ok : cd_ok keep.
Proof.
  intros e e' H. apply some_eq in H. subst e'. split; [|repeat (split; [reflexivity|]); reflexivity]. cbn [e_bodies set_bodies]. induction (e_bodies e); constructor; auto. exists ftree. reflexivity.
Qed.
Lemma f_indexed s cs hs : bodies_indexed (fengine s cs hs).
Proof. intros k b H. destruct k as [|[|[|[|k]]]]; cbn in H; try discriminate; apply some_eq in H; subst b; reflexivity. Qed.
Lemma fh_indexed s cs : hinges_indexed (fengine s cs [fhinge]).
Proof. intros k b H. destruct k as [|[|k]]; cbn in H; try discriminate; apply some_eq in H; subst b; reflexivity. Qed.
Lemma norm_k : vnorm (mkV 0 0 1) = 1.
Proof. unfold vnorm, vdot; cbn. replace (0 * 0 + 0 * 0 + 1 * 1) with 1 by ring. apply sqrt_1. Qed.

Lemma f_state s cs hs : exists st, copy_from_engine (fengine s cs hs) = Some st /\ (forall j, s_duext st j = 0) /\
  s_u st = get_velocity_vector (e_bodies (fengine s cs hs)) /\ compute_inverse_mass_matrix (get_position_vector (e_bodies (fengine s cs hs))) (e_bodies (fengine s cs hs)) = Some (s_W st).
Proof.
  assert (Hf : copy_from_engine (fengine s cs hs) <> None).
  { unfold copy_from_engine, compute_inverse_mass_matrix. cbn [e_bodies fengine enum length seq combine map_opt fst snd]. unfold inverse_mass_blocks. cbn [b_fixed gB fA fB b_mass b_inertia vx vy vz].
    destruct (Reqb_spec 1 0); [lra|]. cbn [orb]. discriminate. }
  destruct (copy_from_engine (fengine s cs hs)) as [st|] eqn:Est; [|congruence]. exists st. split; [auto|].
  destruct (copy_from_eq _ _ Est) as (Ex & Eu & EW & Ed). split; [|split; [auto|rewrite <- EW; reflexivity]].
  intros j. rewrite Ed. transitivity (mdotv (6 * length (e_bodies (fengine s cs hs))) (s_W st) (fun _ => 0) j); [|apply mdotv_zero]. apply mdotv_ext. intros i _.
  unfold compute_total_external_forces. cbn [e_bodies fengine enum length seq combine fold_left b_fixed gB fA fB]. unfold body_force. cbn [b_forces fA fB fold_left].
  replace (read3 (get_velocity_vector [gB; fA s; fB s]) (6 * 1 + 3)) with vzero by (unfold read3; cbn; reflexivity).
  replace (read3 (get_velocity_vector [gB; fA s; fB s]) (6 * 2 + 3)) with vzero by (unfold read3; cbn; reflexivity).
  assert (Z : forall M, vopp (vcross vzero (mvec M vzero)) = vzero). { intros M. generalize (mvec M vzero). intros [a1 a2 a3]. unfold vopp, vcross, vzero; cbn. f_equal; ring. }
  rewrite !Z. unfold write3. cbn [vx vy vz vzero]. repeat match goal with |- context [if ?c then _ else _] => destruct c end; reflexivity.
Qed.
Lemma f_contacts s hs : exists J, contact_jacobian (fengine s [fcon] hs) = Some J /\ (forall l, J 0%nat l = if Nat.eqb l 8 then 1 else if Nat.eqb l 2 then -1 else 0).
Proof.
  destruct (orthonormal_spec (mkV 0 0 1)) as (t & b & n & EO & _). { intros Z. apply (f_equal vz) in Z. cbn in Z. lra. }
  assert (En : n = mkV 0 0 1). { destruct (orthonormal_some _ _ _ _ EO) as (-> & _). rewrite norm_k. unfold vdiv; cbn. f_equal; field. }
  unfold contact_jacobian. cbn [e_contacts fengine enum length seq combine map_opt fst snd]. unfold contact_entries. cbn [c_A c_B c_n fcon].
  change (find_body (fengine s [fcon] hs) [103%nat]) with (Some gB). change (find_body (fengine s [fcon] hs) [97%nat]) with (Some (fA s)). rewrite EO, En. eexists. split; [reflexivity|].
  cbn [concat app]. intros l. unfold vcross, vsub, vopp. cbn [vx vy vz b_r gB fA c_p fcon vzero].
  destruct l as [|[|[|[|[|[|[|[|[|[|[|[|l]]]]]]]]]]]]; cbn; try ring; field.
Qed.
Lemma f_W s hs W : compute_inverse_mass_matrix (get_position_vector (e_bodies (fengine s [fcon] hs))) (e_bodies (fengine s [fcon] hs)) = Some W ->
  forall j, W j 2%nat = 0 /\ W j 8%nat = if Nat.eqb j 8 then 1 else 0.
Proof.
  intros EW. unfold compute_inverse_mass_matrix in EW. cbn [e_bodies fengine enum length seq combine map_opt fst snd] in EW. unfold inverse_mass_blocks in EW. cbn [b_fixed gB fA fB b_mass b_inertia vx vy vz] in EW.
  destruct (Reqb_spec 1 0); [lra|]. cbn [orb concat app] in EW. apply some_eq in EW. intros j. rewrite <- EW. unfold block_diag3. clear.
  change (2 / 3)%nat with 0%nat. change (8 / 3)%nat with 2%nat. change (2 mod 3)%nat with 2%nat. change (8 mod 3)%nat with 2%nat. split.
  - destruct (Nat.eqb_spec (j / 3) 0) as [->|]; auto. cbn [nth]. destruct (j mod 3)%nat as [|[|m]]; reflexivity.
  - destruct (Nat.eqb_spec (j / 3) 2) as [E|E].
    + rewrite E. cbn [nth]. assert (D := Nat.div_mod j 3 ltac:(lia)). rewrite E in D. assert (L := Nat.mod_upper_bound j 3 ltac:(lia)).
      destruct (j mod 3)%nat as [|[|[|m]]]; try lia; (destruct (Nat.eqb_spec j 8); try lia); cbn; lra.
    + destruct (Nat.eqb_spec j 8) as [->|]; auto. exfalso. apply E. reflexivity.
Qed.
Definition push (s : R) : vec := fun i => if Nat.eqb i 0 then s else 0.
(** the contact problem: the impulse s stops the falling body and solves the problem *)
Lemma f_problem s hs dt : exists P, posed_contacts keep dt (fengine s [fcon] hs) = Some P /\ pB P = 4%nat /\ pK P = 1%nat /\ pN P = 18%nat /\
  (forall l, impulse P (push s) l = if Nat.eqb l 8 then s else if Nat.eqb l 2 then - s else 0) /\ (forall i, (i < 4)%nat -> residual P (push s) i = 0) /\
  exists mu, P = contact_problem 1 18 (pJ P) (pWJT P) (pb P) mu prox_sphere /\ mu 0%nat = vx (i_mu interaction_init).
Proof.
  destruct (f_state s [fcon] hs) as (st & Est & D0 & Eu & EW). destruct (f_contacts s hs) as (J & EJ & J0). assert (HW := f_W s hs _ EW).
  unfold posed_contacts. rewrite Est. change (keep (fengine s [fcon] hs)) with (Some (fengine s [fcon] hs)). cbv beta iota.
  assert (HQ : contacts_initialize dt st (fengine s [fcon] hs) <> None).
  { unfold contacts_initialize. rewrite EJ. unfold contact_error, restitution_vector, friction_vector. cbn [e_params fengine p_use_pre p_use_bounce params_init negb e_contacts map_opt]. unfold contact_behavior. cbn [c_A c_B fcon].
    change (find_body (fengine s [fcon] hs) [103%nat]) with (Some gB). change (find_body (fengine s [fcon] hs) [97%nat]) with (Some (fA s)). discriminate. }
  destruct (contacts_initialize dt st (fengine s [fcon] hs)) as [P|] eqn:EP; [|congruence]. clear HQ. exists P. split; [reflexivity|].
  destruct (contacts_parts _ _ _ _ EP) as (J1 & g & eps & mu & EJ1 & Eg & Ee & Em & EB & EK & EN & EPJ & Epx & EPP & Epb). assert (EJJ : J1 = J) by congruence. rewrite EJJ in *. clear EJJ.
  cbn [e_bodies e_contacts fengine length Nat.mul Nat.add] in EK, EN, EPP, Epb. split; [auto|]. split; [auto|]. split; [auto|].
  assert (HI : forall l, impulse P (push s) l = if Nat.eqb l 8 then s else if Nat.eqb l 2 then - s else 0).
  { intros l. unfold impulse. rewrite EB, EK, EPJ. cbn [Nat.mul Nat.add rsum]. unfold push; cbn [Nat.eqb]. rewrite J0. destruct (Nat.eqb l 8), (Nat.eqb l 2); ring. }
  split; [exact HI|]. split.
  - assert (G0 : forall i, g i = 0) by (unfold contact_error in Eg; cbn [e_params fengine p_use_pre params_init negb] in Eg; apply some_eq in Eg; subst g; reflexivity).
    assert (E0 : forall i, eps i = 0) by (unfold restitution_vector in Ee; cbn [e_params fengine p_use_bounce params_init negb] in Ee; apply some_eq in Ee; subst eps; reflexivity).
    set (u' := fun j => s_u st j + WJTx P (push s) j).
    assert (HR : forall i, residual P (push s) i = mdotv 18 J u' i).
    { intros i. unfold residual, delassus. rewrite EN, EPJ, Epb, E0, G0. unfold u'. rewrite mdotv_plus. rewrite (mdotv_ext 18 J (fun j => dt * s_duext st j) (fun _ => 0)) by (intros; rewrite D0; ring). rewrite mdotv_zero. ring. }
    assert (HWx : forall j, WJTx P (push s) j = if Nat.eqb j 8 then s else 0).
    { intros j. rewrite (WJTx_impulse P (s_W st) (push s) j). 2:{ rewrite EN, EPJ. rewrite EPP. reflexivity. }
      rewrite EN. transitivity (mdotv 18 (s_W st) (fun l => if Nat.eqb l 8 then s else if Nat.eqb l 2 then - s else 0) j); [apply mdotv_ext; intros; apply HI|].
      destruct (HW j) as [W2 W8]. unfold mdotv. cbn [rsum Nat.eqb]. rewrite W2, W8. destruct (Nat.eqb j 8); ring. }
    destruct (contact_row (fengine s [fcon] hs) J 0 fcon (f_indexed s [fcon] hs) EJ eq_refl) as (A & B & t1 & t2 & n & EA & EB' & _ & Hrow). 
    change (find_body (fengine s [fcon] hs) (c_A fcon)) with (Some gB) in EA. change (find_body (fengine s [fcon] hs) (c_B fcon)) with (Some (fA s)) in EB'.
    assert (A = gB) by congruence. assert (B = fA s) by congruence. subst A B. destruct (Hrow u') as (Q0 & Q1 & Q2 & Q3). cbv zeta in Q0, Q1, Q2, Q3. cbn [Nat.mul Nat.add] in Q0, Q1, Q2, Q3.
    change (6 * length (e_bodies (fengine s [fcon] hs)))%nat with 18%nat in Q0, Q1, Q2, Q3.
    assert (U : forall b, b = gB \/ b = fA s -> lin u' b = vzero /\ ang u' b = vzero).
    { intros b Hb. unfold lin, ang, read3, u'. rewrite !HWx, Eu. destruct Hb as [-> | ->]; cbn; unfold write3, vzero; cbn; split; f_equal; ring. }
    destruct (U gB (or_introl eq_refl)) as [UG1 UG2]. destruct (U (fA s) (or_intror eq_refl)) as [UA1 UA2].
    assert (V0 : vsub (velocity_at u' (fA s) (c_p fcon)) (velocity_at u' gB (c_p fcon)) = vzero).
    { unfold velocity_at. rewrite UG1, UG2, UA1, UA2. unfold point_velocity, vsub, vadd, vcross, vzero; cbn. f_equal; ring. }
    rewrite V0 in Q0, Q1, Q2. rewrite UG2, UA2 in Q3. assert (Z : forall v, vdot v vzero = 0) by (intros []; unfold vdot, vzero; cbn; ring).
    replace (vsub vzero vzero) with vzero in Q3 by (unfold vsub, vzero; cbn; f_equal; ring). rewrite !Z in *.
    intros i Hi. rewrite HR. destruct i as [|[|[|[|i]]]]; try lia; auto.
  - exists mu. split. { rewrite EPP. reflexivity. } destruct (friction_row _ mu 0 fcon Em eq_refl) as (i & Ei & ->). unfold contact_behavior in Ei. cbn [c_A c_B fcon] in Ei.
    change (find_body (fengine s [fcon] hs) [103%nat]) with (Some gB) in Ei. change (find_body (fengine s [fcon] hs) [97%nat]) with (Some (fA s)) in Ei. cbn in Ei. apply some_eq in Ei. subst i. reflexivity.
Qed.
Lemma f_solved s hs dt P r : 0 <= s -> (forall i, 0 < r i) -> posed_contacts keep dt (fengine s [fcon] hs) = Some P -> stationary 4 (gs_sweep P) r (push s).
Proof.
  intros Hs Hr HP. destruct (f_problem s hs dt) as (P1 & HP1 & EB & EK & EN & _ & HR & mu & EP & Emu). assert (P1 = P) by congruence. subst P1.
  assert (Hm : 0 <= mu 0%nat) by (rewrite Emu; cbn; lra).
  assert (G := C126_stationary GaussSeidel 1 18 (pJ P) (pWJT P) (pb P) mu (fun g => g) [[0%nat]] r (push s) (fun i _ => Hr i) ltac:(intros k Hk; replace k with 0%nat by lia; exact Hm) (fun g => Permutation_refl g) (Permutation_refl _)).
  cbv zeta in G. cbn [scheme_sweep] in G. rewrite <- EP in G. apply G. intros k Hk. assert (k = 0%nat) by lia. subst k.
  unfold normal_of, friction_of. cbn [Nat.mul Nat.add]. rewrite !HR by lia. unfold push; cbn [Nat.eqb]. split; [unfold signorini; lra|]. split.
  - unfold vnorm, vdot; cbn. rewrite !Rmult_0_l, !Rplus_0_l, sqrt_0. apply Rmult_le_pos; lra.
  - intros g _. destruct g as [g1 g2 g3]. unfold vdot, vmul; cbn. lra.
Qed.
Lemma f_hinges s cs dt : exists Q, posed_hinges keep dt (fengine s cs [fhinge]) = Some Q /\ pB Q = 5%nat /\ pK Q = 1%nat /\ pprox Q = hinge_prox /\
  (forall i, (i < 5)%nat -> residual Q vzeros i = 0).
Proof.
  destruct (f_state s cs [fhinge]) as (st & Est & D0 & Eu & EW).
  unfold posed_hinges. rewrite Est. change (keep (fengine s cs [fhinge])) with (Some (fengine s cs [fhinge])). cbv beta iota.
  destruct (orthonormal_spec (q_rotate q_identity (q_rotate q_identity v3_k))) as (t & b & n & EO & _).
  { rewrite !q_identity_rotate. intros Z. apply (f_equal vz) in Z. cbn in Z. lra. }
  assert (HQ : hinges_initialize dt st (fengine s cs [fhinge]) <> None).
  { unfold hinges_initialize, hinge_jacobian. cbn [e_hinges fengine map_opt]. unfold hinge_entries. cbn [h_sockets fhinge sk_body].
    change (find_body (fengine s cs [fhinge]) [97%nat]) with (Some (fA s)). change (find_body (fengine s cs [fhinge]) [98%nat]) with (Some (fB s)). unfold sk_axis, sk_arm. cbn [sk_frame xq xr b_q fA fB].
    rewrite EO. unfold hinge_error. cbn [e_params fengine p_use_pre params_init negb]. discriminate. }
  destruct (hinges_initialize dt st (fengine s cs [fhinge])) as [Q|] eqn:EQ; [|congruence]. clear HQ. exists Q. split; [reflexivity|].
  destruct (hinges_parts _ _ _ _ EQ) as (J & g & EJ & Eg & EB & EK & EN & EPJ & EPW & EPX & Epb). do 3 (split; [auto|]).
  assert (G0 : forall i, g i = 0) by (unfold hinge_error in Eg; cbn [e_params fengine p_use_pre params_init negb] in Eg; apply some_eq in Eg; subst g; reflexivity).
  change (6 * length (e_bodies (fengine s cs [fhinge])))%nat with 18%nat in *.
  assert (HR : forall i, residual Q vzeros i = mdotv 18 J (s_u st) i).
  { intros i. unfold residual, delassus. rewrite EN, EPJ, Epb, G0. rewrite (mdotv_ext 18 J (fun j => dt * s_duext st j) (fun _ => 0)) by (intros; rewrite D0; ring).
    rewrite (mdotv_ext 18 J (WJTx Q vzeros) (fun _ => 0)). 2:{ intros j _. unfold WJTx. apply mdotv_zero. } rewrite !mdotv_zero. ring. }
  destruct (C52_hinges (fengine s cs [fhinge]) J 0 fhinge (f_indexed s _ _) (fh_indexed s cs) EJ eq_refl) as (sp & sc & P & C & t1 & b1 & n1 & Es & EP & EC & _ & Hrow).
  cbn in Es. injection Es; intros <- <-. assert (P = fA s) by (cbn in EP; congruence). assert (C = fB s) by (cbn in EC; congruence). subst P C.
  destruct (Hrow (s_u st)) as (R3 & R4 & R5). cbv zeta in R3, R4, R5. change (6 * length (e_bodies (fengine s cs [fhinge])))%nat with 18%nat in R3, R4, R5. cbn [Nat.mul Nat.add] in R3, R4, R5.
  assert (U : lin (s_u st) (fA s) = mkV 0 0 (- s) /\ ang (s_u st) (fA s) = vzero /\ lin (s_u st) (fB s) = mkV 0 0 (- s) /\ ang (s_u st) (fB s) = vzero).
  { rewrite Eu. unfold lin, ang, read3. cbn. unfold write3; cbn. repeat split; reflexivity. }
  destruct U as (U1 & U2 & U3 & U4).
  assert (Z : forall v, vdot v vzero = 0) by (intros []; unfold vdot, vzero; cbn; ring).
  rewrite U2, U4 in R4, R5. replace (vsub vzero vzero) with vzero in R4, R5 by (unfold vsub, vzero; cbn; f_equal; ring). rewrite Z in R4, R5.
  unfold velocity_at in R3. rewrite U1, U2, U3, U4 in R3.
  assert (R3' : read3 (mdotv 18 J (s_u st)) 0 = vzero). { rewrite R3. unfold point_velocity. generalize (vsub (anchor (fA s) {| sk_body := [97%nat]; sk_frame := {| xr := mkV (1/2) 0 0; xq := q_identity |} |}) (b_r (fA s))) (vsub (anchor (fB s) {| sk_body := [98%nat]; sk_frame := {| xr := mkV (-1/2) 0 0; xq := q_identity |} |}) (b_r (fB s))).
    intros [a1 a2 a3] [c1 c2 c3]. unfold vadd, vsub, vcross, vzero; cbn. f_equal; ring. }
  unfold read3 in R3'. cbn [Nat.add] in R3'. injection R3'; intros Z2 Z1 Z0.
  intros i Hi. rewrite HR. destruct i as [|[|[|[|[|i]]]]]; try lia; auto.
Qed.
(** Together with contacts this fails even when both problems are solved exactly: the joint is intact before the step (the
    anchors coincide and move together), the contact stops one of the two bodies, and the joint problem, which knows
    nothing of the contact, lets the other one move on. *)
Theorem C129_refuted : exists e e' dt Pc Ph xc xh, bodies_indexed e /\ hinges_indexed e /\ p_use_pre (e_params e) = false /\ 0 < dt /\
  posed_contacts keep dt e = Some Pc /\ posed_hinges keep dt e = Some Ph /\
  (forall r, (forall i, 0 < r i) -> stationary (4 * length (e_contacts e)) (gs_sweep Pc) r xc /\ stationary (5 * length (e_hinges e)) (gs_sweep Ph) r xh) /\
  step_with (fun _ _ => [xc; xh]) keep dt e = Some e' /\
  exists h sp sc P C P' C', In h (e_hinges e) /\ h_sockets h = Some (sp, sc) /\ find_body e (sk_body sp) = Some P /\ find_body e (sk_body sc) = Some C /\
    find_body e' (sk_body sp) = Some P' /\ find_body e' (sk_body sc) = Some C' /\ anchor P sp = anchor C sc /\
    point_velocity (b_r P) (b_v P) (b_w P) (anchor P sp) = point_velocity (b_r C) (b_v C) (b_w C) (anchor C sc) /\
    point_velocity (b_r P) (b_v P') (b_w P') (anchor P sp) <> point_velocity (b_r C) (b_v C') (b_w C') (anchor C sc).
Proof.
  set (e := fengine 1 [fcon] [fhinge]). set (dt := 1/100).
  destruct (f_problem 1 [fhinge] dt) as (Pc & HPc & EB & EK & EN & HI & _). destruct (f_hinges 1 [fcon] dt) as (Ph & HPh & EBh & EKh & EXh & HRh).
  set (solver := fun (_ : params) (_ : list problem) => [push 1; vzeros]).
  assert (HS : exists e', step_with solver keep dt e = Some e').
  { unfold posed_contacts in HPc. unfold posed_hinges in HPh. fold e in HPc, HPh. destruct (copy_from_engine e) as [st|] eqn:Est; [|discriminate].
    change (keep e) with (Some e) in HPc, HPh. cbv beta iota in HPc, HPh. unfold step_with. rewrite Est. change (keep e) with (Some e). cbv beta iota.
    change (e_contacts e) with [fcon]. change (e_hinges e) with [fhinge]. cbv beta iota. rewrite HPc, HPh. cbv beta iota zeta. eexists. reflexivity. }
  destruct HS as [e' HS]. exists e, e', dt, Pc, Ph, (push 1), vzeros. split; [apply f_indexed|]. split; [apply fh_indexed|]. split; [reflexivity|]. split; [unfold dt; lra|].
  split; [exact HPc|]. split; [exact HPh|]. split.
  { intros r Hr. split; [apply (f_solved 1 [fhinge] dt Pc r); [lra|auto|exact HPc]|]. assert (HK := proj2 (hinge_solved Ph r vzeros EBh EXh Hr)). rewrite EKh in HK. apply HK. intros i Hi. apply HRh. lia. }
  split; [exact HS|].
  destruct (step_decompose _ _ _ _ _ keep_ok HS) as (tr & HF). assert (HF' := HF).
  destruct HF as (Hst & Hcd1 & _ & HC2 & _ & HH2 & Hsol & _ & _ & He').
  assert (E1 : t_engine tr = e) by (change (keep e) with (Some e) in Hcd1; congruence). rewrite E1 in *.
  destruct (HC2 ltac:(discriminate)) as (P0 & HP0 & Ecp). destruct (HH2 ltac:(discriminate)) as (Q0 & HQ0 & Ehp).
  assert (P0 = Pc). { unfold posed_contacts in HPc. fold e in HPc. rewrite Hst in HPc. change (keep e) with (Some e) in HPc. congruence. } subst P0.
  assert (HT : forall l, total_impulse (t_pairs tr) l = if Nat.eqb l 8 then 1 else if Nat.eqb l 2 then - 1 else 0).
  { intros l. unfold t_pairs. rewrite Hsol by (rewrite Ecp; discriminate). unfold solver. rewrite Ecp, Ehp. cbn [app combine total_impulse fold_right fst snd]. unfold total_impulse. cbn [fold_right fst snd].
    rewrite HI. assert (Z : impulse Q0 vzeros l = 0) by (unfold impulse; apply rsum_zero; intros; unfold vzeros; ring). rewrite Z. destruct (Nat.eqb l 8), (Nat.eqb l 2); lra. }
  exists fhinge. eexists. eexists. exists (fA 1), (fB 1).
  destruct (step_body _ _ _ _ _ _ 1 (fA 1) keep_ok HF' eq_refl) as (A' & HA' & SA & _ & HAf). destruct (HAf eq_refl) as (_ & _ & _ & _ & VA & WA & _).
  destruct (step_body _ _ _ _ _ _ 2 (fB 1) keep_ok HF' eq_refl) as (B' & HB' & SB & _ & HBf). destruct (HBf eq_refl) as (_ & _ & _ & _ & VB & WB & _).
  destruct (step_body _ _ _ _ _ _ 0 gB keep_ok HF' eq_refl) as (G' & HG' & SG & _ & _).
  exists A', B'. split; [left; reflexivity|]. split; [reflexivity|]. split; [reflexivity|]. split; [reflexivity|].
  assert (EL : length (e_bodies e') = 3%nat) by (rewrite (proj1 (C49_fixed_step _ _ _ _ _ keep_ok HS)); reflexivity).
  assert (EBs : e_bodies e' = [G'; A'; B']).
  { destruct (e_bodies e') as [|b0 [|b1 [|b2 [|b3 bs]]]]; cbn in EL; try lia. cbn in HA', HB', HG'. congruence. }
  assert (NM : b_name G' = [103%nat] /\ b_name A' = [97%nat] /\ b_name B' = [98%nat]).
  { destruct SG as (-> & _). destruct SA as (-> & _). destruct SB as (-> & _). auto. }
  destruct NM as (N0 & N1 & N2).
  split. { unfold find_body. rewrite EBs. cbn [sk_body find]. rewrite N0, N1. reflexivity. }
  split. { unfold find_body. rewrite EBs. cbn [sk_body find]. rewrite N0, N1, N2. reflexivity. }
  assert (AE : anchor (fA 1) {| sk_body := [97%nat]; sk_frame := {| xr := mkV (1/2) 0 0; xq := q_identity |} |} = mkV (1/2) 0 0).
  { unfold anchor, sk_arm. cbn [sk_frame xr b_q b_r fA]. rewrite q_identity_rotate. unfold vadd, vzero; cbn. f_equal; ring. }
  assert (BE : anchor (fB 1) {| sk_body := [98%nat]; sk_frame := {| xr := mkV (-1/2) 0 0; xq := q_identity |} |} = mkV (1/2) 0 0).
  { unfold anchor, sk_arm. cbn [sk_frame xr b_q b_r fB]. rewrite q_identity_rotate. unfold vadd, vzero; cbn. f_equal; field. }
  split; [rewrite AE, BE; reflexivity|]. split. { rewrite AE, BE. unfold point_velocity, vadd, vsub, vcross; cbn. f_equal; ring. }
  rewrite AE, BE.
  assert (XA : fst (ext_force (fA 1)) = vzero /\ snd (ext_force (fA 1)) = vzero).
  { unfold ext_force. cbn [b_forces fA fold_left b_w]. generalize (update_inertia_tensor (q_to_matrix (b_q (fA 1))) (b_inertia (fA 1))). intros M. destruct M. cbn. unfold vopp, vcross, mvec, vdot, vzero; cbn. split; f_equal; ring. }
  assert (XB : fst (ext_force (fB 1)) = vzero /\ snd (ext_force (fB 1)) = vzero).
  { unfold ext_force. cbn [b_forces fB fold_left b_w]. generalize (update_inertia_tensor (q_to_matrix (b_q (fB 1))) (b_inertia (fB 1))). intros M. destruct M. cbn. unfold vopp, vcross, mvec, vdot, vzero; cbn. split; f_equal; ring. }
  rewrite (proj1 XA) in VA. rewrite (proj2 XA) in WA. rewrite (proj1 XB) in VB. rewrite (proj2 XB) in WB.
  assert (T1 : read3 (total_impulse (t_pairs tr)) (6 * 1) = mkV 0 0 1) by (unfold read3; rewrite !HT; reflexivity).
  assert (T2 : read3 (total_impulse (t_pairs tr)) (6 * 1 + 3) = vzero) by (unfold read3; rewrite !HT; reflexivity).
  assert (T3 : read3 (total_impulse (t_pairs tr)) (6 * 2) = vzero) by (unfold read3; rewrite !HT; reflexivity).
  assert (T4 : read3 (total_impulse (t_pairs tr)) (6 * 2 + 3) = vzero) by (unfold read3; rewrite !HT; reflexivity).
  rewrite T1 in VA. rewrite T2 in WA. rewrite T3 in VB. rewrite T4 in WB.
  assert (Z0 : vadd (vscale dt vzero) vzero = vzero) by (unfold vadd, vscale, vzero; cbn; f_equal; ring). rewrite Z0 in WA, VB, WB.
  assert (M0 : forall M, mvec M vzero = vzero) by (intros []; unfold mvec, vdot, vzero; cbn; f_equal; ring). rewrite !M0 in WA, WB.
  cbn [b_w fA fB b_v b_mass b_r] in *. intros E. apply (f_equal vz) in E. rewrite VA, WA, VB, WB in E. unfold point_velocity, vadd, vsub, vcross, vscale, vzero in E; cbn in E. lra.
Qed.

(** * The hypotheses are met *)
Lemma f_step s dt x : exists e', step_with (fun _ _ => [x]) keep dt (fengine s [fcon] []) = Some e'.
Proof.
  set (e := fengine s [fcon] []). destruct (f_problem s [] dt) as (Pc & HPc & _). unfold posed_contacts in HPc. fold e in HPc. destruct (copy_from_engine e) as [st|] eqn:Est; [|discriminate].
  change (keep e) with (Some e) in HPc. cbv beta iota in HPc. unfold step_with. rewrite Est. change (keep e) with (Some e). cbv beta iota.
  change (e_contacts e) with [fcon]. change (e_hinges e) with (@nil hinge). cbv beta iota. rewrite HPc. cbv beta iota zeta. eexists. reflexivity.
Qed.
Lemma f_lib key i : lib_get library_init key = Some i -> 0 <= vx (i_mu i).
Proof. unfold library_init, lib_get. destruct (key_eqb (default_name, default_name) key); [|discriminate]. intros H. apply some_eq in H. subst i. cbn. lra. Qed.
Lemma f_masses s cs hs : masses_positive (e_bodies (fengine s cs hs)).
Proof. intros b [<-|[<-|[<-|[]]]] Hf; try discriminate; cbn; lra. Qed.
(** a falling body stopped by the ground: C126, C127 and C128 apply, with a multiplier that is not zero *)
Example C127_nonvacuous : exists e e' dt P x, let solver := fun (_ : params) (_ : list problem) => [x] in
  cd_ok keep /\ step_with solver keep dt e = Some e' /\ bodies_indexed e /\ e_hinges e = [] /\ e_contacts e' <> [] /\
  masses_positive (e_bodies e) /\ (forall key i, lib_get (e_lib e) key = Some i -> 0 <= vx (i_mu i)) /\
  (forall b, In b (e_bodies e) -> b_fixed b = true -> b_v b = vzero /\ b_w b = vzero) /\
  p_use_bounce (e_params e) = false /\ p_use_pre (e_params e) = false /\ posed_contacts keep dt e = Some P /\
  (forall r, (forall i, 0 < r i) -> stationary (4 * length (e_contacts e')) (gs_sweep P) r x) /\ normal_of x 0 = 1.
Proof.
  destruct (f_step 1 (1/100) (push 1)) as [e' HS]. destruct (f_problem 1 [] (1/100)) as (P & HP & _).
  exists (fengine 1 [fcon] []), e', (1/100), P, (push 1). cbv zeta. split; [apply keep_ok|]. split; [exact HS|]. split; [apply f_indexed|]. split; [reflexivity|].
  assert (EC : e_contacts e' = [fcon]).
  { destruct (step_decompose _ _ _ _ _ keep_ok HS) as (tr & HF). destruct HF as (_ & Hcd1 & _ & _ & _ & _ & _ & _ & _ & He'). rewrite He'. cbn [e_contacts set_bodies]. change (keep (fengine 1 [fcon] [])) with (Some (fengine 1 [fcon] [])) in Hcd1. assert (t_engine tr = fengine 1 [fcon] []) by congruence. rewrite H. reflexivity. }
  split; [rewrite EC; discriminate|]. split; [apply f_masses|]. split; [exact f_lib|]. split. { intros b [<-|[<-|[<-|[]]]] Hf; try discriminate; split; reflexivity. }
  split; [reflexivity|]. split; [reflexivity|]. split; [exact HP|]. split; [|reflexivity]. intros r Hr. rewrite EC. apply (f_solved 1 [] (1/100) P r); auto. lra.
Qed.
(** the theorem about energy applies to the same step *)
Definition C128_nonvacuous := C127_nonvacuous.
(** a contact problem with a solution that is not zero *)
Example C126_nonvacuous : exists K N J WJT b mu r x, (0 < K)%nat /\ (forall i, 0 < r i) /\ (forall k, (k < K)%nat -> 0 <= mu k) /\
  stationary (4 * K) (gs_sweep (contact_problem K N J WJT b mu prox_sphere)) r x /\ normal_of x 0 = 1.
Proof.
  destruct (f_problem 1 [] (1/100)) as (P & HP & _ & _ & _ & _ & _ & mu & EP & Emu). exists 1%nat, 18%nat, (pJ P), (pWJT P), (pb P), mu, (fun _ => 1), (push 1).
  split; [lia|]. split; [intros; lra|]. split; [intros k Hk; replace k with 0%nat by lia; rewrite Emu; cbn; lra|]. split; [|reflexivity]. rewrite <- EP. apply (f_solved 1 [] (1/100)); auto; intros; lra.
Qed.
(** the solver of the engine stops with exit code 1 on bodies at rest *)
Example C127_stopped_nonvacuous : exists e e' dt P res out, step_with run_solver keep dt e = Some e' /\ e_contacts e <> [] /\ posed_contacts keep dt e = Some P /\
  0 < p_nu_reduce (e_params e) /\ 0 < p_nu_increase (e_params e) /\ 0 < p_abs_tol (e_params e) /\
  rigid_solve (engine_sparams (e_params e)) [ps_init P] = (res, 1%nat, out).
Proof.
  set (e := fengine 0 [fcon] []). set (dt := 1/100). destruct (f_problem 0 [] dt) as (P & HP & EB & EK & EN & _). 
  assert (HS : exists e', step_with run_solver keep dt e = Some e').
  { assert (HPc := HP). unfold posed_contacts in HPc. fold e in HPc. destruct (copy_from_engine e) as [st|] eqn:Est; [|discriminate].
    change (keep e) with (Some e) in HPc. cbv beta iota in HPc. unfold step_with. rewrite Est. change (keep e) with (Some e). cbv beta iota.
    change (e_contacts e) with [fcon]. change (e_hinges e) with (@nil hinge). cbv beta iota. rewrite HPc. cbv beta iota zeta. eexists. reflexivity. }
  destruct HS as [e' HS]. exists e, e', dt, P.
  assert (ED : forall i, 0 < initial_r 1 (pN P) (pJ P) (pWJT P) i).
  { intros i. apply initial_r_pos. destruct (f_state 0 [fcon] []) as (st & Est & _ & _ & EW). assert (HPc := HP). unfold posed_contacts in HPc. rewrite Est in HPc. change (keep (fengine 0 [fcon] [])) with (Some (fengine 0 [fcon] [])) in HPc. cbv beta iota in HPc.
    destruct (contacts_parts _ _ _ _ HPc) as (J & g & eps & mu & _ & _ & _ & _ & _ & _ & EN' & EPJ & _ & EPP & _). rewrite EPP. cbn [pN pJ pWJT contact_problem]. apply (diag_nonneg _ _ _ _ _ EW). apply f_masses. }
  assert (HF : forall i, (i < 4)%nat -> gs_sweep P (initial_r 1 (pN P) (pJ P) (pWJT P)) vzeros i = 0).
  { intros i Hi. assert (E0 : vzeros = push 0) by (extensionality j; unfold push, vzeros; destruct (Nat.eqb j 0); reflexivity). rewrite E0. rewrite (f_solved 0 [] dt P _ ltac:(lra) ED HP i Hi). unfold push. destruct (Nat.eqb i 0); reflexivity. }
  assert (M0 : snd (ps_step (engine_sparams (e_params e)) (ps_init P)) = 0).
  { unfold ps_step, ps_init. cbn [ps_sweep ps_n ps_x ps_sol ps_r ps_last worse]. cbv zeta. cbn [snd]. rewrite EB, EK. cbn [Nat.mul Nat.add Nat.pred].
    apply Rle_antisym; [|apply ninf_nonneg]. destruct (ninf_ok 3 (fun i => gs_sweep P (initial_r 1 (pN P) (pJ P) (pWJT P)) vzeros i - vzeros i)) as [(j & Hj & EJ) _].
    rewrite EJ, HF by lia. unfold vzeros. rewrite Rminus_0_r, Rabs_R0. lra. }
  assert (EL : rigid_solve (engine_sparams (e_params e)) [ps_init P] = ([Rmax 0 0], 1%nat, [fst (ps_step (engine_sparams (e_params e)) (ps_init P))])).
  { unfold rigid_solve. change (sp_max_iter (engine_sparams (e_params e))) with (Datatypes.S 199). cbn [rigid_loop map fold_left]. rewrite M0.
    destruct (Rltb_spec (Rmax 0 0) (sp_abs (engine_sparams (e_params e)))) as [L|L]; [reflexivity|]. exfalso. apply L. rewrite Rmax_left by lra. cbn. lra. }
  eexists. eexists. split; [exact HS|]. split; [discriminate|]. split; [exact HP|]. split; [cbn; lra|]. split; [cbn; lra|]. split; [cbn; lra|]. exact EL.
Qed.
(** two falling bodies joined by a hinge, without contacts *)
Example C129_nonvacuous : exists e e' dt Q x, step_with (fun _ _ => [x]) keep dt e = Some e' /\ bodies_indexed e /\ hinges_indexed e /\ e_hinges e <> [] /\
  e_contacts e' = [] /\ p_use_pre (e_params e) = false /\ posed_hinges keep dt e = Some Q /\
  forall r, (forall i, 0 < r i) -> stationary (5 * length (e_hinges e)) (gs_sweep Q) r x.
Proof.
  set (e := fengine 1 [] [fhinge]). set (dt := 1/100). destruct (f_hinges 1 [] dt) as (Ph & HPh & EBh & EKh & EXh & HRh).
  assert (HS : exists e', step_with (fun _ _ => [vzeros]) keep dt e = Some e' /\ e_contacts e' = []).
  { assert (HP := HPh). unfold posed_hinges in HP. fold e in HP. destruct (copy_from_engine e) as [st|] eqn:Est; [|discriminate].
    change (keep e) with (Some e) in HP. cbv beta iota in HP. unfold step_with. rewrite Est. change (keep e) with (Some e). cbv beta iota.
    change (e_contacts e) with (@nil contact). change (e_hinges e) with [fhinge]. cbv beta iota. rewrite HP. cbv beta iota zeta. eexists. split; reflexivity. }
  destruct HS as (e' & HS & EC). exists e, e', dt, Ph, vzeros. split; [exact HS|]. split; [apply f_indexed|]. split; [apply fh_indexed|]. split; [discriminate|]. split; [exact EC|]. split; [reflexivity|]. split; [exact HPh|].
  intros r Hr. assert (HK := proj2 (hinge_solved Ph r vzeros EBh EXh Hr)). rewrite EKh in HK. apply HK. intros i Hi. apply HRh. lia.
Qed.
Print Assumptions C126_stationary.
Print Assumptions C126_coulomb_partial.
Print Assumptions C126_coulomb_refuted.
Print Assumptions C126_stopped.
Print Assumptions C127_residual.
Print Assumptions C127_contact_law.
Print Assumptions C127_stopped.
Print Assumptions C128_energy.
Print Assumptions C129_hinges_partial.
Print Assumptions C129_refuted.
