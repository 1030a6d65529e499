(** Hinge pre-stabilisation: C78. *)
From Verif Require Import Base QuatModel VecModel BvhModel GridModel VolModel VecProofs SolverModel SolverProofs ProxModel QuatProofs QuatMatProofs RotProofs
  BvhSpec RigidTypes RigidSpec CollModel StepModel StepProofs StepProofs2 ReadySpec ReadyProofs ConSpec ConProofs ConProofs2 FrameProofs Prop_Step Prop_Constraints.
Open Scope R_scope.

Lemma write3_same g o d : read3 (write3 g o d) o = d.
Proof.
  unfold read3, write3. rewrite Nat.eqb_refl.
  replace (Nat.eqb (o + 1) o) with false by (symmetry; apply Nat.eqb_neq; lia). rewrite Nat.eqb_refl.
  replace (Nat.eqb (o + 2) o) with false by (symmetry; apply Nat.eqb_neq; lia).
  replace (Nat.eqb (o + 2) (o + 1)) with false by (symmetry; apply Nat.eqb_neq; lia). rewrite Nat.eqb_refl. destruct d; reflexivity.
Qed.
Lemma write3_out g o d j : (j < o \/ o + 3 <= j)%nat -> write3 g o d j = g j.
Proof.
  intros H. unfold write3. replace (Nat.eqb j o) with false by (symmetry; apply Nat.eqb_neq; lia).
  replace (Nat.eqb j (o + 1)) with false by (symmetry; apply Nat.eqb_neq; lia). replace (Nat.eqb j (o + 2)) with false by (symmetry; apply Nat.eqb_neq; lia). reflexivity.
Qed.
(** the five entries of a hinge in the error vector *)
Lemma hinge_error_loop_out e hs : forall g g', hinge_error_loop e hs g = Some g' ->
  forall k, (forall h, In h hs -> h_idx h <> k) -> forall i, (i < 5)%nat -> g' (5 * k + i)%nat = g (5 * k + i)%nat.
Proof.
  induction hs as [|h hs IH]; intros g g' H k Hk i Hi; cbn [hinge_error_loop] in H; [congruence|].
  destruct (hinge_gap e h) as [[[d a] b]|]; [|discriminate]. rewrite (IH _ _ H k) by (auto; intros; apply Hk; right; auto).
  assert (h_idx h <> k) by (apply Hk; left; auto).
  replace (Nat.eqb (5 * k + i) (5 * h_idx h + 3)) with false by (symmetry; apply Nat.eqb_neq; lia).
  replace (Nat.eqb (5 * k + i) (5 * h_idx h + 4)) with false by (symmetry; apply Nat.eqb_neq; lia). apply write3_out. lia.
Qed.
Lemma hinge_error_loop_in e hs : forall g g' h, hinge_error_loop e hs g = Some g' -> NoDup (map h_idx hs) -> In h hs ->
  exists d a b, hinge_gap e h = Some (d, a, b) /\ read3 g' (5 * h_idx h) = d /\ g' (5 * h_idx h + 3)%nat = a /\ g' (5 * h_idx h + 4)%nat = b.
Proof.
  induction hs as [|h0 hs IH]; intros g g' h H HN Hi; cbn [hinge_error_loop] in H; [destruct Hi|].
  destruct (hinge_gap e h0) as [[[d a] b]|] eqn:Eg; [|discriminate]. cbn [map] in HN. inversion HN as [|x l Hn HN']; subst.
  destruct Hi as [->|Hi]; [|eapply IH; eauto]. exists d, a, b. split; [auto|].
  assert (HO : forall h1, In h1 hs -> h_idx h1 <> h_idx h) by (intros h1 H1 E; apply Hn; rewrite <- E; apply in_map; auto).
  assert (O := hinge_error_loop_out _ _ _ _ H _ HO). set (o := (5 * h_idx h)%nat) in *.
  assert (O3 := O 3%nat ltac:(lia)). assert (O4 := O 4%nat ltac:(lia)).
  assert (O0 := O 0%nat ltac:(lia)). assert (O1 := O 1%nat ltac:(lia)). assert (O2 := O 2%nat ltac:(lia)). cbv beta in *. rewrite Nat.add_0_r in O0.
  split; [|split].
  - rewrite <- (write3_same g o d). unfold read3. rewrite O0, O1, O2.
    repeat match goal with |- context [Nat.eqb ?x (o + 3)] => replace (Nat.eqb x (o + 3)) with false by (symmetry; apply Nat.eqb_neq; lia) end.
    repeat match goal with |- context [Nat.eqb ?x (o + 4)] => replace (Nat.eqb x (o + 4)) with false by (symmetry; apply Nat.eqb_neq; lia) end. reflexivity.
  - rewrite O3. rewrite Nat.eqb_refl. reflexivity.
  - rewrite O4. replace (Nat.eqb (o + 4) (o + 3)) with false by (symmetry; apply Nat.eqb_neq; lia). rewrite Nat.eqb_refl. reflexivity.
Qed.
Lemma indexed_nodup e : hinges_indexed e -> NoDup (map h_idx (e_hinges e)).
Proof.
  intros H. apply NoDup_nth_error. intros i j Hi E. rewrite map_length in Hi. rewrite !nth_error_map in E.
  destruct (nth_error (e_hinges e) i) as [h|] eqn:Ei; [|apply nth_error_None in Ei; lia].
  destruct (nth_error (e_hinges e) j) as [h'|] eqn:Ej; [|discriminate]. cbn in E. rewrite (H _ _ Ei), (H _ _ Ej) in E. congruence.
Qed.

(** * C78 *)
(** The two anchor points of a hinge one time step dt later, if the bodies kept the velocities u: the sum of the
    position now and dt times the velocity of that material point. *)
Definition moved (dt : R) (u : vec) (b : body) (p : vec3) : vec3 := vadd p (vscale dt (velocity_at u b p)).

(** If the multipliers x solve the hinge equations exactly, the velocities they produce do not close the gap between
    the two anchors: they enlarge it by the factor 1 + gap_reduction (where 1 - gap_reduction was wanted). *)
Theorem C78_gap_partial e dt st Q k h x :
  bodies_indexed e -> hinges_indexed e -> p_use_pre (e_params e) = true -> dt <> 0 ->
  hinges_initialize dt st e = Some Q -> nth_error (e_hinges e) k = Some h ->
  (forall i, (i < 5 * length (e_hinges e))%nat -> mdotv (6 * length (e_bodies e)) (pJ Q) (WJTx Q x) i + pb Q i = 0) ->
  exists sp sc P C, h_sockets h = Some (sp, sc) /\ find_body e (sk_body sp) = Some P /\ find_body e (sk_body sc) = Some C /\
  let u := fun j => s_u st j + (dt * s_duext st j + WJTx Q x j) in
  vsub (moved dt u P (anchor P sp)) (moved dt u C (anchor C sc)) = vscale (1 + p_gap_reduction (e_params e)) (vsub (anchor P sp) (anchor C sc)).
Proof.
  intros HI HH HP Hdt HQ Hk HX. unfold hinges_initialize in HQ. destruct (hinge_jacobian e) as [J|] eqn:EJ; [|discriminate].
  cbv zeta in HQ. destruct (hinge_error dt e) as [g|] eqn:Eg; [|discriminate].
  destruct (C52_hinges e J k h HI HH EJ Hk) as (sp & sc & P & C & t & b & n & Es & EP & EC & _ & HR).
  exists sp, sc, P, C. do 3 (split; [auto|]). cbv zeta. set (u := fun j => s_u st j + (dt * s_duext st j + WJTx Q x j)).
  destruct (HR u) as (H3 & _). cbv zeta in H3. clear HR. set (N := (6 * length (e_bodies e))%nat) in *.
  assert (EQJ : pJ Q = J) by (apply some_eq in HQ; subst Q; reflexivity). rewrite EQJ in HX.
  assert (EQb : forall i, pb Q i = mdotv N J (s_u st) i + mdotv N J (fun j => dt * s_duext st j) i + g i) by (intros i; apply some_eq in HQ; subst Q; reflexivity).
  assert (HJu : forall i, (i < 5 * length (e_hinges e))%nat -> mdotv N J u i = - g i).
  { intros i Hi. specialize (HX i Hi). rewrite EQb in HX. unfold u. rewrite !mdotv_plus. lra. }
  assert (Hkl : (k < length (e_hinges e))%nat) by (apply nth_error_Some; congruence).
  assert (Hg : read3 g (5 * k) = vscale (p_gap_reduction (e_params e) / dt) (vsub (anchor C sc) (anchor P sp))).
  { unfold hinge_error in Eg. rewrite HP in Eg. cbn [negb] in Eg. destruct (hinge_error_loop e (e_hinges e) vzeros) as [g0|] eqn:El; [|discriminate].
    destruct (Reqb_spec dt 0); [contradiction|]. apply some_eq in Eg. subst g.
    destruct (hinge_error_loop_in _ _ _ _ h El (indexed_nodup e HH) (nth_error_In _ _ Hk)) as (d & a & b' & Egap & E3 & _). rewrite (HH _ _ Hk) in E3.
    assert (Ed : d = vsub (anchor C sc) (anchor P sp)).
    { unfold hinge_gap in Egap. rewrite Es, EP, EC in Egap. destruct (make_orthonormal_vectors _) as [[[t1 t2] t3]|]; [|discriminate]. injection Egap; intros _ _ <-. reflexivity. }
    rewrite <- Ed, <- E3. unfold read3, vscale; cbn [vx vy vz]. f_equal; ring. }
  assert (HG : read3 (mdotv N J u) (5 * k) = vopp (read3 g (5 * k))).
  { unfold read3, vopp; cbn [vx vy vz]. rewrite !HJu by lia. reflexivity. }
  rewrite HG, Hg in H3. unfold moved.
  replace (vsub (vadd (anchor P sp) (vscale dt (velocity_at u P (anchor P sp)))) (vadd (anchor C sc) (vscale dt (velocity_at u C (anchor C sc)))))
    with (vadd (vsub (anchor P sp) (anchor C sc)) (vscale dt (vsub (velocity_at u P (anchor P sp)) (velocity_at u C (anchor C sc))))).
  2:{ destruct (anchor P sp), (anchor C sc), (velocity_at u P _), (velocity_at u C _). unfold vadd, vsub, vscale; cbn. f_equal; ring. }
  rewrite <- H3. destruct (anchor P sp), (anchor C sc). unfold vadd, vsub, vscale, vopp; cbn. f_equal; field; auto.
Qed.

(** Two bodies at rest without forces; the parent is fixed at the origin, the child has drifted to (1,0,0). *)
Definition hp : body := mkBody [112%nat] 0 q_identity vzero vzero vzero 1 (mkV 1 1 1) None true [] default_name None.
Definition hc : body := mkBody [99%nat] 1 q_identity (mkV 1 0 0) vzero vzero 1 (mkV 1 1 1) None false [] default_name None.
Definition hj : hinge := mkHinge [104%nat] 0 (Some (mkSocket [112%nat] (mkX vzero q_identity), mkSocket [99%nat] (mkX vzero q_identity))).
Definition h_params : params := mkParams (1/100) 200 false true false (1/2) (1/1000) (1/100) (1/1000) (1/10000) (7/10) (13/10) (1/100) 8 0 255 3 (1/10) 64.
Definition h_engine : engine := mkEngine [hp; hc] [] [] [hj] [] library_init h_params true.
Lemma h_indexed : bodies_indexed h_engine /\ hinges_indexed h_engine.
Proof.
  split; intros k b H.
  - destruct k as [|[|[|k]]]; cbn in H; try discriminate; apply some_eq in H; subst b; reflexivity.
  - destruct k as [|[|k]]; cbn in H; try discriminate; apply some_eq in H; subst b; reflexivity.
Qed.

Lemma q_identity_rotate v : q_rotate q_identity v = v.
Proof. destruct v. unfold q_rotate, q_identity. qunf. vunf. f_equal; ring. Qed.
Theorem C78_refuted : exists e dt st Q x, bodies_indexed e /\ hinges_indexed e /\ p_use_pre (e_params e) = true /\
  0 < p_gap_reduction (e_params e) < 1 /\ 0 < dt /\ copy_from_engine e = Some st /\ hinges_initialize dt st e = Some Q /\
  (* x solves the hinge equations exactly *)
  (forall i, (i < 5 * length (e_hinges e))%nat -> mdotv (6 * length (e_bodies e)) (pJ Q) (WJTx Q x) i + pb Q i = 0) /\
  (* but the distance between the anchors grows *)
  exists h sp sc P C, In h (e_hinges e) /\ h_sockets h = Some (sp, sc) /\ find_body e (sk_body sp) = Some P /\ find_body e (sk_body sc) = Some C /\
  let u := fun j => s_u st j + (dt * s_duext st j + WJTx Q x j) in
  vnorm (vsub (anchor P sp) (anchor C sc)) < vnorm (vsub (moved dt u P (anchor P sp)) (moved dt u C (anchor C sc))).
Proof.
  destruct h_indexed as [HI HH].
  assert (Hf : copy_from_engine h_engine <> None).
  { unfold copy_from_engine, compute_inverse_mass_matrix. cbn [e_bodies h_engine enum length seq combine map_opt fst snd]. unfold inverse_mass_blocks. cbn [b_fixed hp hc b_mass b_inertia vx vy vz].
    destruct (Reqb_spec 1 0); [lra|]. cbn [orb]. discriminate. }
  destruct (copy_from_engine h_engine) as [st|] eqn:Est; [|congruence]. clear Hf.
  destruct (orthonormal_spec (q_rotate q_identity (q_rotate q_identity v3_k))) as (t & b & n & EO & _).
  { rewrite !q_identity_rotate. intros Z. apply (f_equal vz) in Z. cbn in Z. lra. }
  assert (EJ : exists J, hinge_jacobian h_engine = Some J /\ (forall l, J 0%nat l = if Nat.eqb l 0 then 1 else if Nat.eqb l 6 then -1 else 0) /\
    (forall i, (0 < i < 5)%nat -> J i 6%nat = 0)).
  { unfold hinge_jacobian. cbn [e_hinges h_engine map_opt]. unfold hinge_entries. cbn [h_sockets hj sk_body].
    change (find_body h_engine [112%nat]) with (Some hp). change (find_body h_engine [99%nat]) with (Some hc). unfold sk_axis, sk_arm. cbn [sk_frame xq xr b_q hp hc].
    rewrite EO. eexists. split; [reflexivity|]. rewrite !q_identity_rotate. cbn [concat app]. split.
    - intros l. destruct l as [|[|[|[|[|[|[|[|[|[|[|[|l]]]]]]]]]]]]; cbn; try ring; lra.
    - intros i Hi. destruct i as [|[|[|[|[|i]]]]]; try lia; cbn; try ring; lra. }
  destruct EJ as (J & EJ & J0 & J6).
  destruct (copy_from_eq _ _ Est) as (Ex & Eu & EW & Ed).
  assert (U0 : forall j, s_u st j = 0).
  { intros j. rewrite Eu. cbn. unfold write3; cbn. repeat match goal with |- context [if ?c then _ else _] => destruct c end; reflexivity. }
  assert (D0 : forall j, s_duext st j = 0).
  { intros j. rewrite Ed. transitivity (mdotv (6 * length (e_bodies h_engine)) (s_W st) (fun _ => 0) j); [|apply mdotv_zero]. apply mdotv_ext. intros i _.
    unfold compute_total_external_forces. cbn [e_bodies h_engine enum length seq combine fold_left b_fixed hp hc]. unfold body_force. cbn [b_forces hc fold_left].
    replace (read3 (get_velocity_vector [hp; hc]) (6 * 1 + 3)) with vzero by (unfold read3; cbn; reflexivity).
    assert (Z : vopp (vcross vzero (mvec (update_inertia_tensor (q_to_matrix (read4 (get_position_vector [hp; hc]) (7 * 1 + 3))) (mkV 1 1 1)) vzero)) = vzero).
    { generalize (mvec (update_inertia_tensor (q_to_matrix (read4 (get_position_vector [hp; hc]) (7 * 1 + 3))) (mkV 1 1 1)) vzero). intros [a1 a2 a3]. unfold vopp, vcross, vzero; cbn. f_equal; ring. }
    cbn [b_inertia hc]. rewrite Z. unfold write3. cbn [vx vy vz vzero]. repeat match goal with |- context [if ?c then _ else _] => destruct c end; reflexivity. }
  assert (W6 : forall j, s_W st j 0%nat = 0 /\ s_W st j 6%nat = if Nat.eqb j 6 then 1 else 0).
  { unfold compute_inverse_mass_matrix in EW. cbn [e_bodies h_engine enum length seq combine map_opt fst snd] in EW. unfold inverse_mass_blocks in EW. cbn [b_fixed hp hc b_mass b_inertia vx vy vz] in EW.
    destruct (Reqb_spec 1 0); [lra|]. cbn [orb concat app] in EW. apply some_eq in EW. intros j. rewrite <- EW. unfold block_diag3. clear.
    change (0 / 3)%nat with 0%nat. change (6 / 3)%nat with 2%nat. change (0 mod 3)%nat with 0%nat. change (6 mod 3)%nat with 0%nat. split.
    - destruct (Nat.eqb_spec (j / 3) 0) as [->|]; auto. cbn [nth]. destruct (j mod 3)%nat as [|[|m]]; reflexivity.
    - destruct (Nat.eqb_spec (j / 3) 2) as [E|E].
      + rewrite E. cbn [nth]. assert (D := Nat.div_mod j 3 ltac:(lia)). rewrite E in D. assert (L := Nat.mod_upper_bound j 3 ltac:(lia)).
        destruct (j mod 3)%nat as [|[|[|m]]]; try lia; (destruct (Nat.eqb_spec j 6); try lia); cbn; lra.
      + destruct (Nat.eqb_spec j 6) as [->|]; auto. exfalso. apply E. reflexivity. }
  set (dt := 1/100). set (x := fun j => if Nat.eqb j 0 then -50 else 0).
  assert (HQ : hinges_initialize dt st h_engine <> None).
  { unfold hinges_initialize. rewrite EJ. unfold hinge_error. cbn [e_params h_engine p_use_pre h_params negb hinge_error_loop e_hinges]. unfold hinge_gap. cbn [h_sockets hj sk_body].
    change (find_body h_engine [112%nat]) with (Some hp). change (find_body h_engine [99%nat]) with (Some hc). unfold sk_axis, sk_arm. cbn [sk_frame xq xr b_q hp hc]. rewrite EO.
    unfold dt. destruct (Reqb_spec (1/100) 0); [lra|]. discriminate. }
  destruct (hinges_initialize dt st h_engine) as [Q|] eqn:EQ; [|congruence]. clear HQ.
  assert (PJ : pJ Q = J /\ WJTx Q x = mdotv 5 (mat_WJT 12 (s_W st) J) x).
  { unfold hinges_initialize in EQ. rewrite EJ in EQ. destruct (hinge_error dt h_engine); [|discriminate]. apply some_eq in EQ. subst Q. split; reflexivity. }
  destruct PJ as [PJ PW].
  assert (WX : forall j, WJTx Q x j = if Nat.eqb j 6 then 50 else 0).
  { intros j. rewrite PW. destruct (W6 j) as [A6 B6]. unfold mdotv. cbn [rsum]. unfold x; cbn [Nat.eqb]. unfold mat_WJT. cbn [rsum]. rewrite !J0. cbn [Nat.eqb]. rewrite A6, B6.
    destruct (Nat.eqb j 6); ring. }
  assert (HX : forall i, (i < 5 * length (e_hinges h_engine))%nat -> mdotv (6 * length (e_bodies h_engine)) (pJ Q) (WJTx Q x) i + pb Q i = 0).
  { intros i Hi. cbn [e_hinges h_engine length] in Hi. rewrite PJ.
    assert (E1 : mdotv (6 * length (e_bodies h_engine)) J (WJTx Q x) i = J i 6%nat * 50).
    { transitivity (mdotv 12 J (fun j => if Nat.eqb j 6 then 50 else 0) i); [apply mdotv_ext; intros; apply WX|]. unfold mdotv. cbn [rsum Nat.eqb]. ring. }
    rewrite E1. unfold hinges_initialize in EQ. rewrite EJ in EQ. unfold hinge_error in EQ. cbn [e_params h_engine p_use_pre h_params negb hinge_error_loop e_hinges] in EQ. unfold hinge_gap in EQ. cbn [h_sockets hj sk_body] in EQ.
    change (find_body h_engine [112%nat]) with (Some hp) in EQ. change (find_body h_engine [99%nat]) with (Some hc) in EQ. unfold sk_axis, sk_arm in EQ. cbn [sk_frame xq xr b_q hp hc b_r] in EQ. rewrite EO in EQ.
    unfold dt in EQ. destruct (Reqb_spec (1/100) 0); [lra|]. apply some_eq in EQ. subst Q. cbn [pb].
    rewrite (mdotv_ext _ J (s_u st) (fun _ => 0)) by (intros; apply U0). rewrite (mdotv_ext _ J (fun j => 1 / 100 * s_duext st j) (fun _ => 0)) by (intros; rewrite D0; ring).
    rewrite !mdotv_zero. rewrite !q_identity_rotate. 
    assert (NK : vcross n v3_k = vzero).
    { destruct (orthonormal_some _ _ _ _ EO) as (-> & _). rewrite !q_identity_rotate. unfold vcross, vdiv, v3_k, vzero; cbn. f_equal; unfold Rdiv; ring. }
    rewrite NK. assert (V0 : forall v, vdot v vzero = 0) by (intros []; unfold vdot, vzero; cbn; ring). rewrite !V0. cbn [h_idx hj p_gap_reduction h_params].
    destruct i as [|i].
    - rewrite J0. unfold write3, vsub, vadd, vzero; cbn. field.
    - rewrite J6 by lia. destruct i as [|[|[|[|i]]]]; try lia; unfold write3, vsub, vadd, vzero; cbn; field. }
  exists h_engine, dt, st, Q, x. do 3 (split; [auto|]). split; [cbn; lra|]. split; [unfold dt; lra|]. do 3 (split; [auto|]).
  exists hj. destruct (C78_gap_partial h_engine dt st Q 0 hj x HI HH eq_refl ltac:(unfold dt; lra) EQ eq_refl HX) as (sp & sc & P & C & Es & EP & EC & HG).
  exists sp, sc, P, C. split; [left; reflexivity|]. do 3 (split; [auto|]). cbv zeta in *. rewrite HG.
  cbn in Es. injection Es; intros <- <-. assert (P = hp) by (cbn in EP; congruence). assert (C = hc) by (cbn in EC; congruence). subst P C.
  replace (vsub (anchor hp {| sk_body := [112%nat]; sk_frame := {| xr := vzero; xq := q_identity |} |}) (anchor hc {| sk_body := [99%nat]; sk_frame := {| xr := vzero; xq := q_identity |} |})) with (mkV (-1) 0 0).
  - rewrite vnorm_scale_abs, Rabs_right by (cbn; lra). assert (0 < vnorm (mkV (-1) 0 0)) by (apply vnorm_pos; intros Z; apply (f_equal vx) in Z; cbn in Z; lra).
    cbn [e_params h_engine p_gap_reduction h_params]. lra.
  - unfold anchor, sk_arm. cbn [sk_frame xr b_q b_r hp hc]. rewrite !q_identity_rotate. unfold vsub, vadd, vzero; cbn. f_equal; ring.
Qed.
(** the hypotheses of C51 and C52 are met by this engine *)
Example C52_nonvacuous : bodies_indexed h_engine /\ hinges_indexed h_engine /\ hinge_jacobian h_engine <> None /\ nth_error (e_hinges h_engine) 0 = Some hj.
Proof.
  destruct h_indexed as [HI HH]. do 2 (split; [auto|]). split; [|reflexivity].
  destruct (orthonormal_spec (q_rotate q_identity (q_rotate q_identity v3_k))) as (t & b & n & EO & _).
  { rewrite !q_identity_rotate. intros Z. apply (f_equal vz) in Z. cbn in Z. lra. }
  unfold hinge_jacobian. cbn [e_hinges h_engine map_opt]. unfold hinge_entries. cbn [h_sockets hj sk_body].
  change (find_body h_engine [112%nat]) with (Some hp). change (find_body h_engine [99%nat]) with (Some hc). unfold sk_axis, sk_arm. cbn [sk_frame xq xr b_q hp hc]. rewrite EO. discriminate.
Qed.
(** ... and by two bodies with a contact *)
Definition k_engine : engine := mkEngine [hp; hc] [] [] [] [mkContact [112%nat] [99%nat] vzero (mkV 0 0 1) (-1/10)] library_init params_init true.
Example C52_contact_nonvacuous : bodies_indexed k_engine /\ contact_jacobian k_engine <> None.
Proof.
  split. { apply h_indexed. }
  destruct (orthonormal_spec (mkV 0 0 1)) as (t & b & n & EO & _). { intros Z. apply (f_equal vz) in Z. cbn in Z. lra. }
  unfold contact_jacobian. cbn [e_contacts k_engine enum length seq combine map_opt fst snd]. unfold contact_entries. cbn [c_A c_B c_n].
  change (find_body k_engine [112%nat]) with (Some hp). change (find_body k_engine [99%nat]) with (Some hc). rewrite EO. discriminate.
Qed.
Print Assumptions C78_gap_partial. Print Assumptions C78_refuted.
