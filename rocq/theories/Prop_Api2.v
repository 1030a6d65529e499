(** The set-up interface, continued: C58 (example), C83, C84, C85, C86. *)
From Verif Require Import Base QuatModel QuatProofs VecModel VecProofs BvhModel BvhSpec GridModel VolModel RigidTypes RigidSpec CollModel BaryModel MassModel MassSpec
  StepModel StepProofs StepProofs2 ReadySpec ReadyProofs ConSpec ApiModel ApiSpec ApiProofs RotProofs QuatMatProofs KdopProofs GridProofs MassProofs MassProofs2 Prop_Geometry Prop_Grid Prop_Step Prop_Mass Prop_Api.
Open Scope R_scope.

Lemma some_eq {A} (a b : A) : Some a = Some b -> a = b.
Proof. congruence. Qed.
(** * C83 a call that raises leaves the engine unchanged *)
Theorem C83_raised_partial eig sd c e e' : run_call eig sd c e = Raised e' -> (forall b s, c <> ConnectShape b s) -> e' = e.
Proof. apply raised_same. Qed.

(** ** shapes have valid meshes and grids, bodies have hierarchies over their meshes *)
Definition shape_made (s : shape) : Prop :=
  valid_mesh (sh_V s) (map tri_list (sh_T s)) /\
  exists lo hi I J K v, grid_of lo hi I J K (sh_grid s) /\ node_values (sh_grid s) v /\ g_min (sh_grid s) = lo.
Definition body_made (K : nat) (b : body) : Prop := forall s, b_shape b = Some s ->
  exists tr N X env, b_bvh b = Some tr /\ (1 <= N)%Z /\ bvh_reach (map tri_list (sh_T s)) K N tr X env.
Definition made (e : engine) : Prop :=
  sane_params (e_params e) /\ Forall shape_made (e_shapes e) /\ Forall (body_made (p_K params_init)) (e_bodies e).
Lemma mass_loop_valid V T : forall M M', mass_loop V T M = Some M' -> valid_mesh V (map tri_list T).
Proof.
  induction T as [|[[i j] k] T IH]; intros M M' H el Hel; cbn in Hel; [tauto|]. cbn [mass_loop] in H.
  destruct (py_get V i) as [a|] eqn:Ei; [|discriminate]. destruct (py_get V j) as [b|] eqn:Ej; [|discriminate]. destruct (py_get V k) as [c|] eqn:Ek; [|discriminate].
  destruct (mass_step M (a, b, c)) as [M1|]; [|discriminate]. destruct Hel as [<-|Hel].
  - cbn. rewrite Ei, Ej, Ek. eauto.
  - eapply IH; eauto.
Qed.
Lemma mass_valid V T p : compute_mass_properties V T 1 = Some p -> valid_mesh V (map tri_list T).
Proof. unfold compute_mass_properties. destruct (mass_loop _ _ _) eqn:E; [|discriminate]. intros _. eapply mass_loop_valid; eauto. Qed.
Lemma create_shape_made eig sd e n V T f e' : made e -> fst (create_shape eig sd e n V T f) = Done e' -> made e'.
Proof.
  intros (HP & HS & HB). unfold create_shape. destruct (find_shape e n) eqn:E; [discriminate|].
  destruct (compute_mass_properties V T 1) as [p|] eqn:Ep; [|discriminate].
  destruct (xform_model_2_body_space eig p) as [[[[r q] m] Ib]|] eqn:Ex; [|discriminate].
  set (V' := if f then to_body_frame r q V else V). destruct (shape_boundary V' (e_params e)) as [bd|] eqn:Eb; [|discriminate].
  destruct (create_signed_distance _ _ _ _ _ _) as [g|] eqn:Eg; [|discriminate]. cbn [fst]. intros H. apply done_eq in H. subst e'.
  split; [exact HP|]. split; [|exact HB]. cbn [e_shapes set_shapes]. apply Forall_app. split; auto. constructor; [|constructor].
  assert (HV : valid_mesh V' (map tri_list T)).
  { pose proof (mass_valid _ _ _ Ep) as HV. unfold V'. destruct f; auto. unfold to_body_frame. rewrite q_rotate_array_map. apply valid_mesh_map, valid_mesh_map. auto. }
  split; [exact HV|]. cbn [sh_grid sh_V sh_T].
  assert (Hbd : 0 < bd).
  { unfold shape_boundary in Eb. destruct (np_min0 V'); [|discriminate]. destruct (np_max0 V'); [|discriminate]. injection Eb as <-. destruct HP as (_ & _ & HE). eapply Rlt_le_trans; [|apply Rmax_r]. lra. }
  destruct (C69_signed_distance_grid _ _ _ _ _ _ _ Eg) as (_ & NE & E1 & E2 & E3 & _ & _ & HN).
  unfold create_signed_distance in Eg. destruct (Rltb_spec bd 0); [discriminate|].
  destruct (np_min0 V') as [lo|] eqn:El; [|discriminate]. destruct (np_max0 V') as [hi|] eqn:Eh; [|discriminate].
  destruct (grid_make (vsubc lo bd) (vaddc hi bd) _ _ _) as [g0|] eqn:Eg0; [|discriminate]. destruct (get_nodes_array g0) as [nodes|]; [|discriminate]. apply some_eq in Eg.
  set (N := p_resolution (e_params e)) in *.
  exists (vsubc lo bd), (vaddc hi bd), N, N, N, (fun i j k => sd V' T (get_node_coord g i j k)).
  assert (Bx : vx lo <= vx hi /\ vy lo <= vy hi /\ vz lo <= vz hi).
  { assert (Ea : aabb_create_from_vertices V' = Some (mkAABB lo hi)) by (unfold aabb_create_from_vertices; rewrite El, Eh; auto).
    destruct V' as [|a t]; [congruence|]. destruct (create_bounds _ _ Ea) as [B _]. specialize (B a (or_introl eq_refl)). unfold in_box, v_le in B; cbn in B. lra. }
  split; [|split].
  - unfold grid_of, vsubc, vaddc; cbn. split; [lra|]. split; [lra|]. split; [lra|]. exists g0. split; [exact Eg0|]. eexists. symmetry. exact Eg.
  - intros i j k Hi. apply HN. rewrite E1, E2, E3 in Hi. exact Hi.
  - rewrite <- Eg. cbn [g_min]. apply grid_make_inv in Eg0. tauto.
Qed.
Lemma made_upd e n f : made e -> (forall b, In b (e_bodies e) -> body_made (p_K params_init) b -> body_made (p_K params_init) (f b)) -> made (upd_body e n f).
Proof.
  intros (HP & HS & HB) Hf. split; [exact HP|]. split; [exact HS|]. rewrite Forall_forall in *. intros b' Hb'. apply upd_in in Hb' as (b & Hb & [->|[_ ->]]); auto.
Qed.
Lemma connect_shape_cases e bn sn : made e -> (exists b s t, find_body e bn = Some b /\ find_shape e sn = Some s /\ connect_shape e bn sn = Done (upd_body e bn (fun b => with_shape b s (Some t))) /\
    bvh_reach (map tri_list (sh_T s)) (p_K params_init) (p_chunk (e_params e)) t (sh_V s) (p_envelope (e_params e))) \/ connect_shape e bn sn = Raised e.
Proof.
  intros ((HK & HN & _) & HS & _). unfold connect_shape. destruct (find_body e bn) as [b|]; auto. destruct (find_shape e sn) as [s|] eqn:Es; auto. left.
  assert (Hs : In s (e_shapes e)) by (apply (find_some sh_name) in Es; tauto). rewrite Forall_forall in HS. destruct (HS s Hs) as [HV _]. rewrite HK.
  destruct (C20_make_bvh_shape (sh_V s) (map tri_list (sh_T s)) (p_K params_init) (p_chunk (e_params e)) (p_envelope (e_params e))) as (t & Et & _); auto; [left; reflexivity|].
  rewrite Et. exists b, s, t. do 3 (split; [auto|]). constructor; auto.
Qed.
Lemma call_made eig sd c e e' : made e -> run_call eig sd c e = Done e' \/ run_call eig sd c e = Raised e' -> made e'.
Proof.
  intros HM H.
  assert (R0 : forall b s, c = ConnectShape b s -> made e').
  { intros b s ->. cbn in H. destruct (connect_shape_cases e b s HM) as [(b0 & s0 & t & Hb & Hs & EC & HR)|HR].
    - rewrite EC in H. destruct H as [H|H]; [|discriminate]. apply done_eq in H. subst e'. apply made_upd; auto. intros x _ _ s1 E1. cbn in E1. apply some_eq in E1. subst s1. cbn. destruct HM as ((_ & HN & _) & _). eauto 10.
    - destruct H as [H|H]; rewrite HR in H; [discriminate|]. injection H as <-. auto. }
  assert (RR : run_call eig sd c e = Raised e' -> made e').
  { intros HR. destruct c; try (assert (e' = e) by (eapply raised_same; [exact HR|intros; discriminate]); subst; exact HM). eapply R0; reflexivity. }
  destruct H as [H|H]; [|auto]. clear RR.
  destruct c; try (eapply R0; reflexivity); cbn in H; clear R0.
  all: try (eapply create_shape_made; eauto; fail).
  all: unfold create_hinge, set_hinge, create_gravity_force, create_damping_force, connect_force, set_position, set_orientation, set_velocity, set_spin, set_mass_properties, set_body_type, set_body_material, create_surfaces_interaction in H.
  1:{ unfold create_rigid_body in H. destruct (find_body e n); [discriminate|]. apply done_eq in H. subst e'. destruct HM as (A & B & C). split; [exact A|]. split; [exact B|]. cbn. apply Forall_app. split; auto. constructor; [|constructor]. intros s Hs; discriminate. }
  all: repeat match type of H with
       | context [match ?x with _ => _ end] => destruct x
       end; try discriminate H; apply done_eq in H; subst e'.
  all: try exact HM.
  all: apply made_upd; auto.
Qed.
Lemma step_made dt e e' : well_formed e -> made e -> step dt e = Some e' -> made e'.
Proof.
  intros W (HP & HS & HB) H. destruct (step_decompose _ _ _ _ _ run_cd_ok H) as (t & HF). destruct HF as (_ & Hc & _ & _ & _ & _ & _ & _ & _ & He').
  destruct (run_cd_ok _ _ Hc) as (_ & E1 & E2 & E3 & E4 & E5 & E6).
  assert (HB1 : Forall (body_made (p_K params_init)) (e_bodies (t_engine t))).
  { unfold run_collision_detection, update_bvh in Hc. destruct (map_opt _ _) as [bs|] eqn:E; [|discriminate]. destruct (narrow_phase _) as [ov|]; [|discriminate].
    unfold contact_determination in Hc. destruct (map_opt _ ov) as [cs|]; [|discriminate]. apply some_eq in Hc. rewrite <- Hc. cbn [e_bodies set_contacts set_bodies].
    apply Forall_forall. intros b' Hb'. destruct (map_opt_in _ _ _ _ E Hb') as (b & Hb & Ef). cbv beta in Ef.
    destruct (b_shape b) as [s|] eqn:Es; [|discriminate]. destruct (b_bvh b) as [tr|] eqn:Et; [|discriminate]. destruct (refit_bvh _ _ _ _ _) as [t'|] eqn:Er; [|discriminate]. apply some_eq in Ef. subst b'.
    intros s' Hs'. cbn in Hs'. rewrite Es in Hs'. injection Hs' as <-. rewrite Forall_forall in HB. destruct (HB b Hb s Es) as (tr0 & N & X & env & Et0 & HN & HR). rewrite Et in Et0. injection Et0 as <-.
    exists t', N, (world_vertices b s), (p_envelope (e_params e)). cbn. split; auto. split; auto. destruct HP as (HK & _). rewrite HK in Er. eapply reach_refit; [exact HR| |exact Er].
    apply world_valid. destruct W as (_ & _ & _ & SB & _). rewrite Forall_forall in SB, HS. destruct (SB b Hb) as (_ & SI & _). apply (HS s (SI s Es)). }
  rewrite He'. split; [cbn; rewrite E5; exact HP|]. split; [cbn; rewrite E3; exact HS|].
  apply Forall_forall. intros b' Hb'. apply In_nth_error in Hb' as [k Hk]. cbn [e_bodies set_bodies] in Hk. rewrite copy_nth in Hk.
  destruct (nth_error (e_bodies (t_engine t)) k) as [b1|] eqn:Hk1; [|discriminate]. cbn [option_map] in Hk. apply some_eq in Hk. subst b'.
  rewrite Forall_forall in HB1. exact (HB1 b1 (nth_error_In _ _ Hk1)).
Qed.
Lemma reach_made eig sd e : reach eig sd sane_params e -> made e.
Proof.
  induction 1.
  - split; auto. split; constructor.
  - destruct IHreach as (_ & A & B). split; auto.
  - eapply call_made; eauto.
  - eapply call_made; eauto.
  - eapply step_made; eauto. eapply reach_wf; eauto.
Qed.
(** with sane parameters connect_shape raises only for an unknown name, and then nothing has changed *)
Theorem C83_connect_shape_partial eig sd e bn sn e' : reach eig sd sane_params e -> connect_shape e bn sn = Raised e' ->
  e' = e /\ (~ In bn (map b_name (e_bodies e)) \/ ~ In sn (map sh_name (e_shapes e))).
Proof.
  intros HR H. destruct (connect_shape_cases e bn sn (reach_made _ _ _ HR)) as [(b & s & t & _ & _ & E & _)|E]; rewrite E in H; [discriminate|]. split; [congruence|].
  unfold connect_shape in E. destruct (find_body e bn) as [b|] eqn:Eb; [|left; apply (find_none b_name); auto].
  destruct (find_shape e sn) as [s|] eqn:Es; [|right; apply (find_none sh_name); auto].
  destruct (connect_shape_cases e bn sn (reach_made _ _ _ HR)) as [(b' & s' & t & _ & _ & E' & _)|E']; unfold connect_shape in E'; rewrite Eb, Es in E'.
  - destruct (make_bvh _ _ _ _ _); discriminate.
  - exfalso. destruct (reach_made _ _ _ HR) as ((HK & HN & _) & HS & _). assert (Hs : In s (e_shapes e)) by (apply (find_some sh_name) in Es; tauto). rewrite Forall_forall in HS. destruct (HS s Hs) as [HV _].
    destruct (C20_make_bvh_shape (sh_V s) (map tri_list (sh_T s)) (p_K params_init) (p_chunk (e_params e)) (p_envelope (e_params e))) as (t & Et & _); auto; [left; reflexivity|].
    rewrite HK, Et in E. discriminate.
Qed.

(** * C84 *)
(** after any history of calls and steps with sane parameters: once every body has a shape (and a mass, unless fixed)
    and every hinge is set, the engine is ready in the sense of C76 *)
Theorem C84_ready eig sd e : reach eig sd sane_params e -> set_up e -> engine_ready e.
Proof.
  intros HR (SB & SM & SH). pose proof (reach_wf _ _ _ _ HR) as W. destruct (reach_made _ _ _ HR) as ((HK & HN & HE) & HS & HB).
  destruct W as (_ & _ & _ & WB & WH & _ & _ & (_ & _ & WD) & _). rewrite Forall_forall in *.
  split; [rewrite HK; left; reflexivity|]. rewrite !Forall_forall. split; [|split; [|exact WD]].
  - intros b Hb. destruct (SB b Hb) as (s & Es & (C1 & C2 & C3)). destruct (WB b Hb) as (UQ & SI & _). destruct (HS s (SI s Es)) as (HV & lo & hi & I & J & K & v & G1 & G2 & G3).
    destruct (HB b Hb s Es) as (tr & N & X & env & Et & HN' & HR'). split; [|split; [exact UQ|exact (SM b Hb)]].
    exists s, tr, N, X, env. split; [auto|]. split; [auto|]. split. { subst lo. exists (g_min (sh_grid s)), hi, I, J, K, v. auto 10. } rewrite HK. auto.
  - intros h Hh. specialize (SH h Hh). destruct (h_sockets h) as [[sp sc]|] eqn:Es; [|congruence]. destruct (WH h Hh sp sc Es) as (A1 & A2 & A3 & A4). exists sp, sc. auto.
Qed.
(** so simulating does not raise, returns, and keeps the engine ready *)
Theorem C84_simulate eig sd e T : reach eig sd sane_params e -> set_up e -> 0 < T -> 0 < p_time_step (e_params e) ->
  exists e' dts, lsum dts = T /\ engine_ready e' /\ exists n, forall fuel, (n <= fuel)%nat -> simulate fuel T e = SimDone e' dts.
Proof.
  intros HR HU HT Hts. assert (ST : e_stepper e = true) by (destruct (reach_wf _ _ _ _ HR) as (_ & _ & _ & _ & _ & _ & _ & _ & ST); exact ST).
  exact (C76_simulate_returns T e HT Hts ST (C84_ready eig sd e HR HU)).
Qed.
Print Assumptions C84_ready. Print Assumptions C84_simulate. Print Assumptions C83_connect_shape_partial.

(** ** an example: the octahedron of Prop_Mass.v *)
Lemma oct_mass : exists p, compute_mass_properties octV octT 1 = Some p /\ mp_mass p = 8 /\ mp_c p = mkV 1 0 0 /\
  mp_xx p = 52/5 /\ mp_yy p = 16 /\ mp_zz p = 12 /\ mp_xy p = 0 /\ mp_xz p = 0 /\ mp_yz p = 0.
Proof.
  destruct oct_values as (EV & F0 & F1 & F2 & S00 & S11 & S22 & S01 & S02 & S12).
  destruct C81_nonvacuous as (p & HI & HC & HP & _ & EP & _). exists p. split; auto.
  destruct (C61_closed octV octT 1 HI HC HP) as [_ S]. destruct (S ltac:(lra)) as (p' & EP' & Pm & Pc & Pxx & Pyy & Pzz & Pxy & Pxz & Pyz). assert (p' = p) by congruence. subst p'.
  apply pos_counted in Pm; [|lra]. apply pos_counted in Pxx; [|lra]. apply pos_counted in Pyy; [|lra]. apply pos_counted in Pzz; [|lra].
  apply abs_not_tiny in Pxy; [|left; lra]. apply abs_not_tiny in Pxz; [|left; lra]. apply abs_not_tiny in Pyz; [|left; lra].
  pose proof (Pc 0%nat ltac:(lia)) as P0. apply abs_not_tiny in P0; [|right; rewrite EV, F0; rewrite Rabs_right; lra].
  pose proof (Pc 1%nat ltac:(lia)) as P1. apply abs_not_tiny in P1; [|left; rewrite F1; lra]. pose proof (Pc 2%nat ltac:(lia)) as P2. apply abs_not_tiny in P2; [|left; rewrite F2; lra].
  cbn [comp] in P0, P1, P2. destruct (mp_c p) as [c0 c1 c2]. cbn [vx vy vz] in *. rewrite EV, F0 in P0. rewrite EV, F1 in P1. rewrite EV, F2 in P2.
  split; [lra|]. split; [f_equal; lra|]. lra.
Qed.
Lemma oct_eig : eig_good diag_eig octV octT.
Proof. destruct C81_nonvacuous as (p & _ & _ & _ & _ & EP & HE). intros p' EP'. assert (p' = p) by congruence. subst. exact HE. Qed.
Lemma oct_xform : exists p q I, compute_mass_properties octV octT 1 = Some p /\ xform_model_2_body_space diag_eig p = Some (mkV 1 0 0, q, 8, I) /\
  is_unit q /\ 0 < vx I /\ 0 < vy I /\ 0 < vz I.
Proof.
  destruct oct_mass as (p & EP & Em & Ec & Exx & Eyy & Ezz & Exy & Exz & Eyz). pose proof (oct_eig p EP) as HE. cbv zeta in HE.
  destruct (translate_to_body p) as [r pb] eqn:ET. cbn [snd] in HE.
  destruct (rotate_to_model_spec diag_eig pb HE) as (q & I & ER & HU & _).
  assert (HD : fst (diag_eig (inertia_matrix pb)) = mkV (52/5) 8 4 /\ r = mkV (-(1)) (-(0)) (-(0))).
  { unfold translate_to_body in ET. rewrite Em, Ec, Exx, Eyy, Ezz in ET. cbn [vx vy vz] in ET. injection ET; intros <- <-. unfold diag_eig, inertia_matrix; cbn. split; auto. f_equal; lra. }
  exists p, q, I. split; auto. split.
  { unfold xform_model_2_body_space. rewrite ET, ER, Em. cbn. do 4 f_equal. destruct HD as [_ ->]. unfold vopp; cbn. f_equal; ring. }
  split; auto.
  assert (IP : forall i, 0 < comp (fst (diag_eig (inertia_matrix pb))) i). { intros i. destruct HD as [-> _]. destruct i as [|[|i]]; cbn; lra. }
  unfold rotate_to_model in ER. destruct (diag_eig (inertia_matrix pb)) as [d E]. cbn [fst] in IP. destruct (sort_order d) as [[i j] k]. 
  match type of ER with context [q_from_matrix ?x] => destruct (q_from_matrix x) as [q0|]; [|discriminate] end. apply some_eq in ER. injection ER; intros <- _. cbn. auto.
Qed.
Lemma rotate_vert (q : quat) (V : list vec3) (a : vec3) : In a V -> In (q_rotate (q_conj q) (vadd a (vopp (mkV 1 0 0)))) (to_body_frame (mkV 1 0 0) q V).
Proof. intros H. unfold to_body_frame. rewrite q_rotate_array_map, map_map. apply (in_map (fun x => q_rotate (q_conj q) (vadd x (vopp (mkV 1 0 0))))). exact H. Qed.
(** create_shape succeeds on the octahedron, whatever igl.signed_distance computes *)
Lemma oct_create sd e n (f : bool) : find_shape e n = None -> 0 < p_envelope (e_params e) -> (2 <= p_resolution (e_params e))%Z ->
  exists g q I, is_unit q /\ 0 < vx I /\ 0 < vy I /\ 0 < vz I /\
    let V' := if f then to_body_frame (mkV 1 0 0) q octV else octV in
    create_shape diag_eig sd e n octV octT f = (Done (set_shapes e (e_shapes e ++ [mkShape n V' octT g 8 I (mkV 1 0 0) q])), V') /\
    (f = true -> vx (g_min g) < 0 /\ vy (g_min g) < 0 /\ vz (g_min g) < 0).
Proof.
  intros HN HE HR. destruct oct_xform as (p & q & I & EP & EX & HU & I0 & I1 & I2). unfold create_shape. rewrite HN, EP, EX.
  set (V' := if f then to_body_frame (mkV 1 0 0) q octV else octV).
  assert (NE : V' <> []). { unfold V'. destruct f; [|discriminate]. intros Z. pose proof (rotate_vert q octV (mkV 2 0 0) (or_introl eq_refl)) as H. rewrite Z in H. exact H. }
  assert (exists bd, shape_boundary V' (e_params e) = Some bd /\ 0 < bd) as (bd & Eb & Hb).
  { unfold shape_boundary. destruct V' as [|a t] eqn:E; [congruence|]. destruct (np_min0 (a :: t)) as [lo|] eqn:El; [|discriminate]. destruct (np_max0 (a :: t)) as [hi|] eqn:Eh; [|discriminate].
    eexists; split; [reflexivity|]. eapply Rlt_le_trans; [|apply Rmax_r]. lra. }
  rewrite Eb. destruct (C69_signed_distance_total (sd V' octT) V' _ _ _ bd (Rlt_le _ _ Hb) NE HR HR HR) as [g Eg]. rewrite Eg.
  exists g, q, I. do 4 (split; [auto|]). cbv zeta. fold V'. split; [reflexivity|]. intros ->.
  destruct (C69_signed_distance_grid _ _ _ _ _ _ _ Eg) as (_ & _ & _ & _ & _ & (b & Ea & Emin & _) & _ & _).
  destruct (create_bounds _ _ Ea) as [B _]. 
  pose proof (B _ (rotate_vert q octV (mkV 2 0 0) (or_introl eq_refl))) as B1. pose proof (B _ (rotate_vert q octV (mkV 0 0 0) (or_intror (or_introl eq_refl)))) as B2.
  replace (vadd (mkV 0 0 0) (vopp (mkV 1 0 0))) with (vopp (vadd (mkV 2 0 0) (vopp (mkV 1 0 0)))) in B2 by (unfold vadd, vopp; cbn; f_equal; ring).
  rewrite q_rotate_opp in B2. revert B1 B2. generalize (q_rotate (q_conj q) (vadd (mkV 2 0 0) (vopp (mkV 1 0 0)))). intros [w0 w1 w2]. unfold in_box, v_le, vopp; cbn. intros B1 B2.
  rewrite Emin. unfold grow_box, vsubc; cbn. destruct (bx_min b) as [m0 m1 m2]. cbn in *. lra.
Qed.
(** a body with the octahedron, made with parameters P *)
Definition nA : name := [65%nat].
Definition nS : name := [83%nat].
Definition scene0 (P : params) : engine := set_params (set_bodies create_engine [body_init nA 0]) P.
Lemma scene0_reach eig sd (ok : params -> Prop) P : ok params_init -> ok P -> reach eig sd ok (scene0 P).
Proof.
  intros H0 HP. apply reach_params; auto. apply (reach_done eig sd ok (CreateBody nA) create_engine); [constructor; auto|exact I|reflexivity].
Qed.
Lemma scene_shape sd (ok : params -> Prop) P (f : bool) : ok params_init -> ok P -> 0 < p_envelope P -> (2 <= p_resolution P)%Z ->
  exists s, reach diag_eig sd ok (set_shapes (scene0 P) [s]) /\ sh_name s = nS /\ sh_T s = octT /\ sh_mass s = 8 /\ sh_r s = mkV 1 0 0 /\ is_unit (sh_q s) /\
    0 < vx (sh_inertia s) /\ 0 < vy (sh_inertia s) /\ 0 < vz (sh_inertia s) /\ sh_V s = (if f then to_body_frame (mkV 1 0 0) (sh_q s) octV else octV) /\
    create_shape diag_eig sd (scene0 P) nS octV octT f = (Done (set_shapes (scene0 P) [s]), sh_V s) /\
    (f = true -> corner_nonzero s).
Proof.
  intros H0 HP HE HR. destruct (oct_create sd (scene0 P) nS f eq_refl HE HR) as (g & q & I0 & HU & A0 & A1 & A2 & EC & HG). cbv zeta in EC.
  eexists. split; [|split; [|split; [|split; [|split; [|split; [|split; [|split; [|split; [|split; [|split]]]]]]]]]].
  1:{ apply (reach_done diag_eig sd ok (CreateShape nS octV octT f) (scene0 P)); [apply scene0_reach; auto|exact oct_eig|]. cbn [run_call]. rewrite EC. reflexivity. }
  all: cbn [sh_name sh_T sh_mass sh_r sh_q sh_inertia sh_V]; auto. intros Hf. destruct (HG Hf) as (B0 & B1 & B2). unfold corner_nonzero; cbn. lra.
Qed.
Lemma moved_origin q : is_unit q -> q_rotate (q_conj q) (vadd vzero (vopp (mkV 1 0 0))) <> vzero.
Proof.
  intros HU Z. apply (f_equal (q_rotate q)) in Z. rewrite q_rotate_inv_r in Z by auto.
  assert (R0 : q_rotate q vzero = vzero). { rewrite q_rotate_formula. destruct q as [s0 a b c]. qunf. f_equal; ring. }
  rewrite R0 in Z. apply (f_equal vx) in Z. cbn in Z. lra.
Qed.
Lemma oct_changed q : is_unit q -> to_body_frame (mkV 1 0 0) q octV <> octV.
Proof.
  intros HU E. apply (f_equal (fun V => nth 1 V vzero)) in E. unfold to_body_frame in E. rewrite q_rotate_array_map, map_map in E. cbn [map octV nth] in E.
  apply (moved_origin q HU). exact E.
Qed.
(** connect_shape with chunk size 0 raises (division by zero in make_bvh) after it has assigned the shape: C83 fails *)
Theorem C83_connect_shape_refuted sd : exists e e' b b' s, reach diag_eig sd (fun _ => True) e /\ connect_shape e nA nS = Raised e' /\
  find_body e nA = Some b /\ b_shape b = None /\ find_body e' nA = Some b' /\ b_shape b' = Some s /\ b_bvh b' = None.
Proof.
  set (P := mkParams (1/100) 200 false false false (1/2) (1/1000) (1/100) (1/1000) (1/10000) (7/10) (13/10) (1/100) 8 0 0 3 (1/10) 64).
  destruct (scene_shape sd (fun _ => True) P true I I ltac:(cbn; lra) ltac:(cbn; lia)) as (s & HR & Es & _).
  exists (set_shapes (scene0 P) [s]), (upd_body (set_shapes (scene0 P) [s]) nA (fun b => with_shape b s (b_bvh b))), (body_init nA 0), (with_shape (body_init nA 0) s None), s.
  split; auto. split; [|repeat split].
  unfold connect_shape. replace (find_body (set_shapes (scene0 P) [s]) nA) with (Some (body_init nA 0)) by reflexivity.
  replace (find_shape (set_shapes (scene0 P) [s]) nS) with (Some s) by (unfold find_shape; cbn [e_shapes set_shapes find]; rewrite Es; reflexivity).
  unfold make_bvh. cbn [p_chunk e_params set_shapes scene0 set_params P]. reflexivity.
Qed.
(** C84 is not vacuous: a free body with a shape and a mass *)
Lemma scene_full_lib sd : exists e b s, reach diag_eig sd sane_params e /\ set_up e /\ e_bodies e = [b] /\ b_fixed b = false /\ b_name b = nA /\ b_shape b = Some s /\ e_lib e = library_init /\ e_hinges e = [] /\ e_forces e = [] /\ e_shapes e = [s].
Proof.
  assert (HP : sane_params params_init) by (unfold sane_params; cbn; split; [auto|split; [lia|lra]]).
  destruct (scene_shape sd sane_params params_init true HP HP ltac:(cbn; lra) ltac:(cbn; lia)) as (s & HR & Es & ET & Em & Er & HU & I0 & I1 & I2 & EV & _ & HC).
  set (e2 := set_shapes (scene0 params_init) [s]) in *.
  assert (FS : find_shape e2 nS = Some s) by (unfold find_shape, e2; cbn [e_shapes set_shapes find]; rewrite Es; reflexivity).
  destruct (connect_shape_cases e2 nA nS (reach_made _ _ _ HR)) as [(b & s' & t & Hb & Hs & EC & _)|EC].
  2:{ exfalso. destruct (C83_connect_shape_partial _ _ _ _ _ _ HR EC) as [_ [N|N]]; apply N; [left; reflexivity|left; exact Es]. }
  assert (s' = s) by congruence. subst s'. set (e3 := upd_body e2 nA (fun b => with_shape b s (Some t))) in *.
  assert (R3 : reach diag_eig sd sane_params e3) by (apply (reach_done _ _ _ (ConnectShape nA nS) e2); [auto|exact I|exact EC]).
  assert (R4 : reach diag_eig sd sane_params (upd_body e3 nA (fun b => with_mass b (sh_mass s * 1) (vscale 1 (sh_inertia s))))) by (apply (reach_done _ _ _ (SetMass nA 1) e3); [auto|exact I|reflexivity]).
  eexists _, _, s. split; [exact R4|]. split; [|repeat match goal with |- _ /\ _ => split end; reflexivity].
  split; [|split].
  - intros x [<-|[]]. exists s. split; [reflexivity|]. auto.
  - intros x [<-|[]] _. cbn. rewrite Em. lra.
  - intros h [].
Qed.
Lemma scene_full sd : exists e b s, reach diag_eig sd sane_params e /\ set_up e /\ e_bodies e = [b] /\ b_fixed b = false /\ b_name b = nA /\ b_shape b = Some s.
Proof. destruct (scene_full_lib sd) as (e & b & s & H1 & H2 & H3 & H4 & H5 & H6 & _). exists e, b, s. auto 10. Qed.
Example C84_nonvacuous sd : exists e b, reach diag_eig sd sane_params e /\ set_up e /\ e_bodies e = [b] /\ b_fixed b = false.
Proof. destruct (scene_full sd) as (e & b & s & H1 & H2 & H3 & H4 & _). exists e, b. auto. Qed.
Example C58_nonvacuous sd : exists e e1 e2, reach diag_eig sd sane_params e /\ set_position e nA (mkV 1 2 3) true = Done e1 /\ set_orientation e nA (mkQ 1 1 0 0) true = Done e2.
Proof.
  destruct (scene_full sd) as (e & b & s & HR & _ & EB & _ & EN & Es). exists e.
  assert (FB : find_body e nA = Some b). { unfold find_body. rewrite EB. cbn [find]. rewrite EN. reflexivity. }
  unfold set_position, set_orientation. rewrite FB, Es. eauto.
Qed.

(** * C85 *)
(** create_shape with transform_to_body_frame: a vertex of the mesh the user passed is where the model frame of the body puts it *)
Theorem C85_transformed eig sd e n V T e' : eig_good eig V T -> fst (create_shape eig sd e n V T true) = Done e' ->
  exists s, In s (e_shapes e') /\ sh_name s = n /\ sh_T s = T /\ forall b, map (body_to_world b) (sh_V s) = map (model_to_world b s) V.
Proof.
  intros HE. unfold create_shape. destruct (find_shape e n) eqn:E; [discriminate|].
  destruct (compute_mass_properties V T 1) as [p|] eqn:Ep; [|discriminate].
  destruct (xform_model_2_body_space eig p) as [[[[r q] m] Ib]|] eqn:Ex; [|discriminate].
  destruct (shape_boundary _ _); [|discriminate]. destruct (create_signed_distance _ _ _ _ _ _) as [g|]; [|discriminate]. cbn [fst]. intros H. apply done_eq in H. subst e'.
  eexists. split; [cbn [e_shapes set_shapes]; apply in_app_iff; right; left; reflexivity|]. split; [reflexivity|]. split; [reflexivity|].
  intros b. cbn [sh_V]. unfold to_body_frame. rewrite q_rotate_array_map, !map_map. apply map_ext. intros v. unfold body_to_world, model_to_world. cbn [sh_q sh_r].
  reflexivity.
Qed.
(** without it the mesh is kept as it is, but the body frame transform is recorded all the same: a body placed through its
    model frame at r does not have the vertex at the model origin at r *)
Theorem C85_untransformed_refuted sd : exists e e1 e2 b s r, reach diag_eig sd (fun _ => True) e /\
  fst (create_shape diag_eig sd e nS octV octT false) = Done e1 /\ find_shape e1 nS = Some s /\ sh_V s = octV /\ In vzero octV /\
  reach diag_eig sd (fun _ => True) e2 /\ find_body e2 nA = Some b /\ b_shape b = Some s /\
  model_to_world b s vzero = r /\ body_to_world b vzero <> r.
Proof.
  destruct (scene_shape sd sane_params params_init false) as (s & HR & Es & ET & Em & Er & HU & I0 & I1 & I2 & EV & EC & _);
    [unfold sane_params; cbn; split; [auto|split; [lia|lra]]|unfold sane_params; cbn; split; [auto|split; [lia|lra]]|cbn; lra|cbn; lia|].
  assert (RT : forall x, reach diag_eig sd sane_params x -> reach diag_eig sd (fun _ => True) x).
  { induction 1; [constructor; auto|apply reach_params; auto|eapply reach_done; eauto|eapply reach_raised; eauto|eapply reach_step; eauto]. }
  set (e1 := set_shapes (scene0 params_init) [s]) in *.
  assert (FS : find_shape e1 nS = Some s) by (unfold find_shape, e1; cbn [e_shapes set_shapes find]; rewrite Es; reflexivity).
  destruct (connect_shape_cases e1 nA nS (reach_made _ _ _ HR)) as [(b & s' & t & Hb & Hs & ED & _)|ED].
  2:{ exfalso. destruct (C83_connect_shape_partial _ _ _ _ _ _ HR ED) as [_ [N|N]]; apply N; [left; reflexivity|left; exact Es]. }
  assert (s' = s) by congruence. subst s'. set (e3 := upd_body e1 nA (fun b => with_shape b s (Some t))) in *.
  assert (R3 : reach diag_eig sd (fun _ => True) e3) by (apply (reach_done _ _ _ (ConnectShape nA nS) e1); [auto|exact I|exact ED]).
  assert (FB : find_body e3 nA = Some (with_shape (body_init nA 0) s (Some t))) by reflexivity.
  exists (scene0 params_init), e1, e3, (with_shape (body_init nA 0) s (Some t)), s, (model_to_world (with_shape (body_init nA 0) s (Some t)) s vzero).
  split; [apply scene0_reach; auto|]. split; [rewrite EC; reflexivity|]. split; [exact FS|]. split; [exact EV|]. split; [right; left; reflexivity|]. split; [exact R3|]. split; [exact FB|]. split; [reflexivity|]. split; [reflexivity|].
  unfold body_to_world, model_to_world. cbn [b_q b_r with_shape body_init]. rewrite !q_rotate_id, Er. intros Z.
  apply (moved_origin (sh_q s) HU). replace (vadd vzero (vopp (mkV 1 0 0))) with (vsub vzero (mkV 1 0 0)) by (unfold vadd, vsub, vopp; cbn; f_equal; ring).
  revert Z. generalize (q_rotate (q_conj (sh_q s)) (vsub vzero (mkV 1 0 0))). intros [a b0 c] Z. unfold vadd, vzero in *; cbn in *. injection Z; intros. f_equal; lra.
Qed.

(** * C86 *)
(** create_shape moves the vertices of the mesh object the caller passed, even when it then raises *)
Theorem C86_mesh_unchanged_refuted sd : 
  (exists e e1 V', reach diag_eig sd (fun _ => True) e /\ create_shape diag_eig sd e nS octV octT true = (Done e1, V') /\ V' <> octV) /\
  (exists e V', reach diag_eig sd (fun _ => True) e /\ create_shape diag_eig sd e nS octV octT true = (Raised e, V') /\ V' <> octV).
Proof.
  split.
  - destruct (scene_shape sd (fun _ => True) params_init true I I) as (s & HR & _ & _ & _ & _ & HU & _ & _ & _ & EV & EC & _); [cbn; lra|cbn; lia|].
    eexists _, _, _. split; [|split; [exact EC|]]; [apply scene0_reach; auto|]. rewrite EV. apply oct_changed; auto.
  - set (P := mkParams (1/100) 200 false false false (1/2) (1/1000) (1/100) (1/1000) (1/10000) (7/10) (13/10) (1/100) 8 0 255 3 (1/10) 1).
    exists (scene0 P). destruct oct_xform as (p & q & I0 & EP & EX & HU & _). exists (to_body_frame (mkV 1 0 0) q octV). split; [apply scene0_reach; exact I|]. split; [|apply oct_changed; auto].
    unfold create_shape. rewrite EP, EX. replace (find_shape (scene0 P) nS) with (@None shape) by reflexivity. destruct (shape_boundary _ _) as [bd|]; auto.
    destruct (create_signed_distance _ _ _ _ _ _) as [g|] eqn:Eg; auto. exfalso. unfold create_signed_distance in Eg. destruct (Rltb bd 0); [discriminate|].
    destruct (np_min0 _) as [lo|]; [|discriminate]. destruct (np_max0 _) as [hi|]; [|discriminate]. destruct (grid_make _ _ _ _ _) as [g0|] eqn:Eg0; [|discriminate].
    apply grid_make_inv in Eg0. destruct Eg0 as (_ & _ & _ & _ & _ & _ & HI & _). unfold P in HI. cbn in HI. lia.
Qed.
Print Assumptions C83_connect_shape_refuted. Print Assumptions C85_transformed. Print Assumptions C85_untransformed_refuted. Print Assumptions C86_mesh_unchanged_refuted.
