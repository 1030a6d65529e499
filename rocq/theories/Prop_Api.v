(** The set-up interface of the rigid body simulator: C56, C57, C58, C59, C83. *)
From Verif Require Import Base QuatModel QuatProofs VecModel VecProofs BvhModel GridModel VolModel RigidTypes RigidSpec CollModel BaryModel MassModel MassSpec
  StepModel StepProofs StepProofs2 ReadySpec ReadyProofs ConSpec ApiModel ApiSpec ApiProofs RotProofs.
Open Scope R_scope.

(** * C56 *)
Lemma done_eq a b : Done a = Done b -> b = a.
Proof. congruence. Qed.
(** Every engine a program can see, whatever calls it made, whichever of them raised, and however often it stepped:
    names are unique, the index of a body or hinge is its position in creation order, a body's force list has no duplicate
    and holds forces of the engine, shapes of bodies are shapes of the engine, materials exist, orientations are unit. *)
Theorem C56_well_formed eig sd ok e : reach eig sd ok e -> well_formed e.
Proof. apply reach_wf. Qed.

(** creation: raises iff the name is taken; otherwise the new object has the next index and all others are as before *)
Theorem C56_create_body e n :
  (In n (map b_name (e_bodies e)) -> create_rigid_body e n = Raised e) /\
  (~ In n (map b_name (e_bodies e)) -> exists e', create_rigid_body e n = Done e' /\
     map b_name (e_bodies e') = map b_name (e_bodies e) ++ [n] /\
     find_body e' n = Some (body_init n (length (e_bodies e))) /\ (forall m, m <> n -> find_body e' m = find_body e m) /\
     e_forces e' = e_forces e /\ e_shapes e' = e_shapes e /\ e_hinges e' = e_hinges e /\ e_lib e' = e_lib e /\ e_params e' = e_params e).
Proof.
  unfold create_rigid_body, find_body. split; intros H.
  - destruct (find _ _) eqn:E; auto. exfalso. apply (find_none b_name) in E. auto.
  - apply (find_none b_name) in H. rewrite H. eexists. split; [reflexivity|]. cbn. rewrite map_app. split; [reflexivity|].
    assert (F := find_app_new b_name (e_bodies e) (body_init n (length (e_bodies e))) n H eq_refl). cbn [e_bodies set_bodies]. split.
    + rewrite F, name_eqb_refl. reflexivity.
    + split; auto. intros m Hm. rewrite F, name_eqb_neq by auto. reflexivity.
Qed.
Theorem C56_create_hinge e n :
  (In n (map h_name (e_hinges e)) -> create_hinge e n = Raised e) /\
  (~ In n (map h_name (e_hinges e)) -> exists e', create_hinge e n = Done e' /\
     map h_name (e_hinges e') = map h_name (e_hinges e) ++ [n] /\
     find_hinge e' n = Some (mkHinge n (length (e_hinges e)) None) /\ (forall m, m <> n -> find_hinge e' m = find_hinge e m) /\
     e_bodies e' = e_bodies e /\ e_forces e' = e_forces e /\ e_shapes e' = e_shapes e /\ e_lib e' = e_lib e /\ e_params e' = e_params e).
Proof.
  unfold create_hinge, find_hinge. split; intros H.
  - destruct (find _ _) eqn:E; auto. exfalso. apply (find_none h_name) in E. auto.
  - apply (find_none h_name) in H. rewrite H. eexists. split; [reflexivity|]. cbn. rewrite map_app. split; [reflexivity|].
    assert (F := find_app_new h_name (e_hinges e) (mkHinge n (length (e_hinges e)) None) n H eq_refl). cbn [e_hinges set_hinges]. split.
    + rewrite F, name_eqb_refl. reflexivity.
    + split; auto. intros m Hm. rewrite F, name_eqb_neq by auto. reflexivity.
Qed.
(** gravity and damping: raises iff the name is taken or a coefficient is not positive *)
Theorem C56_create_force e n g up alpha beta : up <> vzero ->
  (In n (map force_name (e_forces e)) \/ g <= 0 <-> create_gravity_force e n g up = Raised e) /\
  (In n (map force_name (e_forces e)) \/ alpha <= 0 \/ beta <= 0 <-> create_damping_force e n alpha beta = Raised e) /\
  (forall e', create_gravity_force e n g up = Done e' -> e_forces e' = e_forces e ++ [Gravity n g (vdiv up (vnorm up))] /\ e_bodies e' = e_bodies e) /\
  (forall e', create_damping_force e n alpha beta = Done e' -> e_forces e' = e_forces e ++ [Damping n alpha beta] /\ e_bodies e' = e_bodies e).
Proof.
  intros HU. assert (Nz : vnorm up <> 0) by (intros E; apply HU, Base.vdot_self_zero; apply sqrt_eq_0; [unfold vdot; nra|exact E]).
  assert (FN : In n (map force_name (e_forces e)) <-> find_force e n <> None).
  { pose proof (find_none force_name (e_forces e) n) as F. unfold find_force. destruct (find _ _) eqn:E; split; intros H; try congruence.
    - destruct (in_dec (list_eq_dec Nat.eq_dec) n (map force_name (e_forces e))); auto. apply F in n0. discriminate.
    - exfalso. apply F; auto. }
  unfold create_gravity_force, create_damping_force. rewrite FN. destruct (find_force e n) eqn:E.
  - split; [|split; [|split]]; try (intros; discriminate); split; auto; left; discriminate.
  - destruct (Reqb_spec (vnorm up) 0) as [|_]; [congruence|].
    destruct (Rleb_spec g 0), (Rleb_spec alpha 0), (Rleb_spec beta 0); (split; [|split; [|split]]).
    all: try (split; intros HH; try discriminate HH; try reflexivity; auto; exfalso; destruct HH as [HH|HH]; try congruence; try (destruct HH); lra).
    all: intros e' HH; try discriminate HH; injection HH as <-; cbn; auto.
Qed.

(** setters: the named body gets the value, keeps its other attributes, and nothing else changes *)
Theorem C56_setters e e' n :
  (forall r, set_position e n r false = Done e' -> only_body e e' n (fun b => with_pose b r (b_q b)) /\ get_position e' n = Some r) /\
  (forall q, set_orientation e n q false = Done e' -> only_body e e' n (fun b => with_pose b (b_r b) (q_unit q)) /\ get_orientation e' n = Some (q_unit q)) /\
  (forall v, set_velocity e n v = Done e' -> only_body e e' n (fun b => with_vel b v (b_w b)) /\ get_velocity e' n = Some v) /\
  (forall w, set_spin e n w = Done e' -> only_body e e' n (fun b => with_vel b (b_v b) w) /\ get_spin e' n = Some w) /\
  (forall d, set_mass_properties e n d = Done e' -> exists b s, find_body e n = Some b /\ b_shape b = Some s /\
     only_body e e' n (fun b => with_mass b (sh_mass s * d) (vscale d (sh_inertia s)))) /\
  (forall f, connect_force e n f = Done e' -> exists fo, In fo (e_forces e) /\ force_name fo = f /\ only_body e e' n (fun b => with_forces b (b_forces b ++ [fo]))) /\
  (forall m, set_body_material e n m = Done e' -> only_body e e' n (fun b => with_material b m)) /\
  (forall s, connect_shape e n s = Done e' -> exists sh t, In sh (e_shapes e) /\ sh_name sh = s /\ only_body e e' n (fun b => with_shape b sh (Some t))).
Proof.
  assert (O : forall f, (forall b, b_name (f b) = b_name b) -> only_body e (upd_body e n f) n f) by (intros; apply upd_only; auto).
  assert (G : forall f b, (forall b, b_name (f b) = b_name b) -> find_body e n = Some b -> find_body (upd_body e n f) n = Some (f b)).
  { intros f b Hf Hb. destruct (O f Hf) as (_ & -> & _). rewrite Hb. reflexivity. }
  repeat match goal with |- _ /\ _ => split end; intros x H.
  - unfold set_position in H. destruct (find_body e n) as [b|] eqn:E; [|discriminate]. apply done_eq in H; subst e'. split; [apply O; auto|]. unfold get_position. rewrite (G (fun b => with_pose b x (b_q b)) b); auto.
  - unfold set_orientation in H. destruct (find_body e n) as [b|] eqn:E; [|discriminate]. apply done_eq in H; subst e'. split; [apply O; auto|]. unfold get_orientation. rewrite (G (fun b => with_pose b (b_r b) (q_unit x)) b); auto.
  - unfold set_velocity in H. destruct (find_body e n) as [b|] eqn:E; [|discriminate]. apply done_eq in H; subst e'. split; [apply O; auto|]. unfold get_velocity. rewrite (G (fun b => with_vel b x (b_w b)) b); auto.
  - unfold set_spin in H. destruct (find_body e n) as [b|] eqn:E; [|discriminate]. apply done_eq in H; subst e'. split; [apply O; auto|]. unfold get_spin. rewrite (G (fun b => with_vel b (b_v b) x) b); auto.
  - unfold set_mass_properties in H. destruct (find_body e n) as [b|] eqn:E; [|discriminate]. destruct (b_shape b) as [s|] eqn:Es; [|discriminate]. apply done_eq in H; subst e'. exists b, s. split; [auto|]. split; [auto|]. apply O; auto.
  - unfold connect_force in H. destruct (find_body e n) as [b|] eqn:E; [|discriminate]. destruct (find_force e x) as [fo|] eqn:Ef; [|discriminate]. destruct (existsb _ _); [discriminate|]. apply done_eq in H. subst e'.
    apply (find_some force_name) in Ef as [Ef1 Ef2]. exists fo. split; [auto|]. split; [auto|]. apply O; auto.
  - unfold set_body_material in H. destruct (find_body e n) as [b|] eqn:E; [|discriminate]. destruct (exist_material _ _); [|discriminate]. apply done_eq in H; subst e'. apply O; auto.
  - unfold connect_shape in H. destruct (find_body e n) as [b|] eqn:E; [|discriminate]. destruct (find_shape e x) as [sh|] eqn:Es; [|discriminate]. destruct (make_bvh _ _ _ _ _) as [t|] eqn:Et; [|discriminate]. apply done_eq in H; subst e'.
    apply (find_some sh_name) in Es as [Es1 Es2]. exists sh, t. split; [auto|]. split; [auto|]. apply O; auto.
Qed.
(** set_body_type knows three spellings of each type *)
Theorem C56_set_type e n ty : In n (map b_name (e_bodies e)) ->
  (In ty fixed_names -> exists e', set_body_type e n ty = Done e' /\ is_fixed_body e' n = Some true /\ only_body e e' n (fun b => with_fixed b true)) /\
  (In ty free_names -> exists e', set_body_type e n ty = Done e' /\ is_fixed_body e' n = Some false /\ only_body e e' n (fun b => with_fixed b false)) /\
  (~ In ty fixed_names -> ~ In ty free_names -> set_body_type e n ty = Raised e).
Proof.
  intros Hn. assert (exists b, find_body e n = Some b) as [b Hb].
  { destruct (find_body e n) as [b|] eqn:E; eauto. apply (find_none b_name) in E. tauto. }
  assert (EX : forall l, existsb (name_eqb ty) l = true <-> In ty l).
  { intros l. rewrite existsb_exists. split; [intros (x & Hx & E)|intros H; exists ty; split; auto; apply name_eqb_refl]. destruct (name_eqb_spec ty x); congruence. }
  assert (G : forall x, is_fixed_body (upd_body e n (fun b => with_fixed b x)) n = Some x).
  { intros x. unfold is_fixed_body. destruct (upd_only e n (fun b => with_fixed b x) (fun _ => eq_refl)) as (_ & -> & _). rewrite Hb. reflexivity. }
  unfold set_body_type. rewrite Hb. split; [|split].
  - intros H. apply EX in H. rewrite H. eexists. split; [reflexivity|]. split; auto. apply upd_only; auto.
  - intros H. destruct (existsb (name_eqb ty) fixed_names) eqn:E1.
    { exfalso. apply EX in E1. unfold fixed_names, free_names in *. cbn in E1, H. decompose [or] E1; decompose [or] H; subst; try discriminate; tauto. }
    apply EX in H. rewrite H. eexists. split; [reflexivity|]. split; auto. apply upd_only; auto.
  - intros H1 H2. destruct (existsb (name_eqb ty) fixed_names) eqn:E1; [exfalso; apply H1, EX; auto|]. destruct (existsb (name_eqb ty) free_names) eqn:E2; [exfalso; apply H2, EX; auto|]. reflexivity.
Qed.
Lemma call_frame eig sd c e e' n b : (run_call eig sd c e = Done e' \/ run_call eig sd c e = Raised e') -> find_body e n = Some b ->
  exists b', find_body e' n = Some b' /\ (~ sets_position n c -> b_r b' = b_r b) /\ (~ sets_orientation n c -> b_q b' = b_q b) /\
    (~ sets_velocity n c -> b_v b' = b_v b) /\ (~ sets_spin n c -> b_w b' = b_w b) /\ (~ sets_type n c -> b_fixed b' = b_fixed b).
Proof.
  intros H Hb.
  assert (same : e' = e \/ e_bodies e' = e_bodies e -> exists b', find_body e' n = Some b' /\ (~ sets_position n c -> b_r b' = b_r b) /\ (~ sets_orientation n c -> b_q b' = b_q b) /\
    (~ sets_velocity n c -> b_v b' = b_v b) /\ (~ sets_spin n c -> b_w b' = b_w b) /\ (~ sets_type n c -> b_fixed b' = b_fixed b)).
  { intros HE. exists b. split; [|auto 10]. destruct HE as [->|HE]; auto. unfold find_body. rewrite HE. auto. }
  assert (U : forall m f, (forall b, b_name (f b) = b_name b) -> e' = upd_body e m f ->
     (m <> n \/ ((~ sets_position n c -> b_r (f b) = b_r b) /\ (~ sets_orientation n c -> b_q (f b) = b_q b) /\
    (~ sets_velocity n c -> b_v (f b) = b_v b) /\ (~ sets_spin n c -> b_w (f b) = b_w b) /\ (~ sets_type n c -> b_fixed (f b) = b_fixed b))) ->
     exists b', find_body e' n = Some b' /\ (~ sets_position n c -> b_r b' = b_r b) /\ (~ sets_orientation n c -> b_q b' = b_q b) /\
    (~ sets_velocity n c -> b_v b' = b_v b) /\ (~ sets_spin n c -> b_w b' = b_w b) /\ (~ sets_type n c -> b_fixed b' = b_fixed b)).
  { intros m f Hf -> HC. destruct (upd_only e m f Hf) as (O1 & O2 & _). destruct (list_eq_dec Nat.eq_dec m n) as [->|Nm].
    - exists (f b). rewrite O2, Hb. split; auto. destruct HC as [HC|HC]; [congruence|]. exact HC.
    - exists b. rewrite O1 by auto. split; auto 10. }
  destruct c; cbn in H.
  all: unfold create_hinge, set_hinge, create_shape, connect_shape, create_gravity_force, create_damping_force, connect_force, set_position, set_orientation, set_velocity, set_spin, set_mass_properties, set_body_type, set_body_material, create_surfaces_interaction in H.
  1:{ unfold create_rigid_body in H. destruct (find_body e n0) eqn:E; destruct H as [H|H]; try discriminate; injection H as <-; [apply same; auto|].
      exists b. split; [|auto 10]. unfold find_body, set_bodies; cbn [e_bodies]. rewrite (find_app_new b_name (e_bodies e) (body_init n0 _) n0 E eq_refl). destruct (name_eqb_spec n0 n); [subst; congruence|exact Hb]. }
  all: repeat match type of H with
       | context [match ?x with _ => _ end] => destruct x; cbn [fst] in H
       end.
  all: destruct H as [H|H]; try discriminate H; injection H as <-.
  all: try (apply same; auto; fail).
  all: try (eapply U; [|reflexivity|]; [intros; reflexivity|]; match goal with |- ?m <> ?n \/ _ => destruct (list_eq_dec Nat.eq_dec m n) as [->|]; [right|left; assumption] end; cbn; intuition congruence).
Qed.
(** getters return the last value set: calls that do not set the position (...) of a body, successful or not, do not change it *)
Theorem C56_getters eig sd cs e e' n : In n (map b_name (e_bodies e)) -> history eig sd cs e e' ->
  (Forall (fun c => ~ sets_position n c) cs -> get_position e' n = get_position e n) /\
  (Forall (fun c => ~ sets_orientation n c) cs -> get_orientation e' n = get_orientation e n) /\
  (Forall (fun c => ~ sets_velocity n c) cs -> get_velocity e' n = get_velocity e n) /\
  (Forall (fun c => ~ sets_spin n c) cs -> get_spin e' n = get_spin e n) /\
  (Forall (fun c => ~ sets_type n c) cs -> is_fixed_body e' n = is_fixed_body e n).
Proof.
  intros Hn H. assert (exists b, find_body e n = Some b) as [b Hb].
  { destruct (find_body e n) as [b|] eqn:E; eauto. apply (find_none b_name) in E. tauto. } clear Hn.
  enough (G : exists b', find_body e' n = Some b' /\ (Forall (fun c => ~ sets_position n c) cs -> b_r b' = b_r b) /\
    (Forall (fun c => ~ sets_orientation n c) cs -> b_q b' = b_q b) /\ (Forall (fun c => ~ sets_velocity n c) cs -> b_v b' = b_v b) /\
    (Forall (fun c => ~ sets_spin n c) cs -> b_w b' = b_w b) /\ (Forall (fun c => ~ sets_type n c) cs -> b_fixed b' = b_fixed b)).
  { destruct G as (b' & Hb' & G1 & G2 & G3 & G4 & G5). unfold get_position, get_orientation, get_velocity, get_spin, is_fixed_body. rewrite Hb, Hb'. cbn. repeat split; intros; f_equal; auto. }
  revert b Hb. induction H; intros b Hb; [exists b; auto 10| |].
  - destruct (call_frame _ _ _ _ _ n b (or_introl H) Hb) as (b1 & Hb1 & A1 & A2 & A3 & A4 & A5).
    destruct (IHhistory b1 Hb1) as (b2 & Hb2 & B1 & B2 & B3 & B4 & B5). exists b2. split; auto.
    repeat split; intros HF; inversion HF; subst; [rewrite B1|rewrite B2|rewrite B3|rewrite B4|rewrite B5]; auto.
  - destruct (call_frame _ _ _ _ _ n b (or_intror H) Hb) as (b1 & Hb1 & A1 & A2 & A3 & A4 & A5).
    destruct (IHhistory b1 Hb1) as (b2 & Hb2 & B1 & B2 & B3 & B4 & B5). exists b2. split; auto.
    repeat split; intros HF; inversion HF; subst; [rewrite B1|rewrite B2|rewrite B3|rewrite B4|rewrite B5]; auto.
Qed.
(** connect_force raises if the force is already attached, and the body then still has it once *)
Theorem C56_force_once e n f b : find_body e n = Some b -> In f (map force_name (b_forces b)) -> connect_force e n f = Raised e.
Proof.
  intros Hb Hf. unfold connect_force. rewrite Hb. destruct (find_force e f) as [fo|] eqn:E; auto. apply (find_some force_name) in E as [_ E].
  assert (X : existsb (fun f' => name_eqb (force_name f') (force_name fo)) (b_forces b) = true).
  { apply existsb_exists. apply in_map_iff in Hf as (x & Ex & Hx). exists x. split; auto. rewrite Ex, E. apply name_eqb_refl. }
  rewrite X. reflexivity.
Qed.
Example C56_nonvacuous eig sd : exists e, reach eig sd (fun _ => True) e /\ length (e_bodies e) = 2%nat /\ (exists b, find_body e [66%nat] = Some b /\ length (b_forces b) = 1%nat /\ b_idx b = 1%nat) /\
  create_rigid_body e [65%nat] = Raised e.
Proof.
  pose (e1 := set_bodies create_engine [body_init [65%nat] 0]). pose (e2 := set_bodies create_engine [body_init [65%nat] 0; body_init [66%nat] 1]).
  pose (e3 := set_forces e2 [Damping [67%nat] 1 1]).
  assert (R1 : reach eig sd (fun _ => True) e1) by (apply (reach_done eig sd _ (CreateBody [65%nat]) create_engine); [constructor; auto|exact I|reflexivity]).
  assert (R2 : reach eig sd (fun _ => True) e2) by (apply (reach_done eig sd _ (CreateBody [66%nat]) e1); [auto|exact I|reflexivity]).
  assert (R3 : reach eig sd (fun _ => True) e3).
  { apply (reach_done eig sd _ (CreateDamping [67%nat] 1 1) e2); [auto|exact I|]. cbn. unfold create_damping_force. cbn. destruct (Rleb_spec 1 0); [lra|]. reflexivity. }
  exists (upd_body e3 [66%nat] (fun b => with_forces b (b_forces b ++ [Damping [67%nat] 1 1]))). split; [|split; [reflexivity|split; [|reflexivity]]].
  - apply (reach_done eig sd _ (ConnectForce [66%nat] [67%nat]) e3); [auto|exact I|reflexivity].
  - eexists. split; [reflexivity|]. split; reflexivity.
Qed.
Print Assumptions C56_well_formed. Print Assumptions C56_getters. Print Assumptions C56_setters.

(** * C57 *)
(** get_interaction does not depend on the order of the two names *)
Theorem C57_symmetric L A B : get_interaction L A B = get_interaction L B A /\ exist_interaction L A B = exist_interaction L B A.
Proof. unfold get_interaction, exist_interaction. rewrite (pair_key_comm A B). auto. Qed.
Lemma pair_key_inj A B A' B' : pair_key A B = pair_key A' B' -> (A = A' /\ B = B') \/ (A = B' /\ B = A').
Proof. unfold pair_key. destruct (name_ltb A B), (name_ltb A' B'); intros H; injection H; intros; subst; auto. Qed.
Lemma call_lib eig sd c e e' : run_call eig sd c e = Done e' \/ run_call eig sd c e = Raised e' ->
  e_lib e' = e_lib e \/ exists A B eps mu, c = CreateInteraction A B eps mu /\ create_surfaces_interaction e A B eps mu = Done e'.
Proof.
  intros H. destruct c; cbn in H.
  16:{ destruct H as [H|H]; [right; eauto 10|]. left. unfold create_surfaces_interaction in H. repeat match type of H with context [match ?x with _ => _ end] => destruct x end; try discriminate H; injection H as <-; reflexivity. }
  all: left; unfold create_rigid_body, create_hinge, set_hinge, create_shape, connect_shape, create_gravity_force, create_damping_force, connect_force, set_position, set_orientation, set_velocity, set_spin, set_mass_properties, set_body_type, set_body_material in H.
  all: repeat match type of H with
       | context [match ?x with _ => _ end] => destruct x; cbn [fst] in H
       end.
  all: destruct H as [H|H]; try discriminate H; injection H as <-; reflexivity.
Qed.
Lemma step_lib dt e e' : step dt e = Some e' -> e_lib e' = e_lib e.
Proof.
  intros H. destruct (step_decompose _ _ _ _ _ run_cd_ok H) as (t & HF). destruct HF as (_ & Hc & _ & _ & _ & _ & _ & _ & _ & He'). destruct (run_cd_ok _ _ Hc) as (_ & _ & _ & _ & E & _). rewrite He'. cbn. auto.
Qed.
Lemma create_interaction_inv e A B eps mu e' : create_surfaces_interaction e A B eps mu = Done e' ->
  e' = set_lib e (lib_set (e_lib e) (pair_key A B) (mkInter mu eps)) /\ lib_get (e_lib e) (pair_key A B) = None /\ 0 <= eps /\ 0 <= vx mu /\ 0 <= vy mu /\ 0 <= vz mu.
Proof.
  unfold create_surfaces_interaction, exist_interaction. destruct (lib_get (e_lib e) (pair_key A B)) eqn:E; [discriminate|]. destruct (Rltb_spec eps 0); [discriminate|]. destruct (Rltb_spec (vx mu) 0); [discriminate|]. destruct (Rltb_spec (vy mu) 0); [discriminate|]. destruct (Rltb_spec (vz mu) 0); [discriminate|].
  rewrite sorted_pair_key. intros H. apply done_eq in H. repeat (split; auto); lra.
Qed.
Lemma call_lib_get eig sd c a b k i : (run_call eig sd c a = Done b \/ run_call eig sd c a = Raised b) -> lib_get (e_lib a) k = Some i -> lib_get (e_lib b) k = Some i.
Proof.
  intros HC HI. destruct (call_lib _ _ _ _ _ HC) as [->|(A & B & eps & mu & _ & HD)]; auto. apply create_interaction_inv in HD as (-> & N & _). cbn [e_lib set_lib]. rewrite lib_get_set. destruct (lkey_eqb_spec (pair_key A B) k); [congruence|auto].
Qed.
Lemma later_lib eig sd ok e e' k i : later eig sd ok e e' -> lib_get (e_lib e) k = Some i -> lib_get (e_lib e') k = Some i.
Proof.
  intros H. induction H; intros HI; auto; [eapply call_lib_get; [left|]; eauto|eapply call_lib_get; [right|]; eauto|]. rewrite (step_lib _ _ _ H0). auto.
Qed.
(** after create_surfaces_interaction(A, B, eps, mu) both orders give exactly (eps, mu), for ever; creating it again raises *)
Theorem C57_created eig sd ok e A B eps mu e1 e2 : create_surfaces_interaction e A B eps mu = Done e1 -> later eig sd ok e1 e2 ->
  get_interaction (e_lib e2) A B = Some (mkInter mu eps) /\ get_interaction (e_lib e2) B A = Some (mkInter mu eps) /\
  (forall eps' mu', create_surfaces_interaction e2 A B eps' mu' = Raised e2 /\ create_surfaces_interaction e2 B A eps' mu' = Raised e2).
Proof.
  intros H HL. apply create_interaction_inv in H as (-> & _).
  assert (G : lib_get (e_lib e2) (pair_key A B) = Some (mkInter mu eps)).
  { eapply later_lib; [exact HL|]. cbn [e_lib set_lib]. rewrite lib_get_set. destruct (lkey_eqb_spec (pair_key A B) (pair_key A B)); congruence. }
  unfold get_interaction, create_surfaces_interaction, exist_interaction. rewrite (pair_key_comm B A), G. auto.
Qed.
(** the pairs that a call does not mention keep what they had; no other call and no time step changes an interaction *)
Theorem C57_others eig sd c e e' A' B' : (run_call eig sd c e = Done e' \/ run_call eig sd c e = Raised e') ->
  lib_get (e_lib e) (default_name, default_name) <> None ->
  (forall A B eps mu, c = CreateInteraction A B eps mu -> ~ (A = A' /\ B = B') /\ ~ (A = B' /\ B = A')) ->
  get_interaction (e_lib e') A' B' = get_interaction (e_lib e) A' B'.
Proof.
  intros H HD HN. destruct (call_lib _ _ _ _ _ H) as [->|(A & B & eps & mu & Ec & HC)]; auto. destruct (HN _ _ _ _ Ec) as [N1 N2].
  apply create_interaction_inv in HC as (-> & N & _). unfold get_interaction. cbn [e_lib set_lib]. rewrite !lib_get_set.
  destruct (lkey_eqb_spec (pair_key A B) (pair_key A' B')) as [E|_]; [apply pair_key_inj in E; tauto|].
  destruct (lkey_eqb_spec (pair_key A B) (default_name, default_name)) as [E|_]; [rewrite E in N; congruence|]. reflexivity.
Qed.
Theorem C57_step dt e e' : step dt e = Some e' -> e_lib e' = e_lib e.
Proof. apply step_lib. Qed.
(** a pair without an interaction of its own has the default one (mu = 1, 1, 1 and eps = 0), which never changes *)
Theorem C57_default eig sd ok e A B : reach eig sd ok e -> exist_interaction (e_lib e) A B = false \/ (A = default_name /\ B = default_name) ->
  get_interaction (e_lib e) A B = Some (mkInter (mkV 1 1 1) 0).
Proof.
  intros H HE. assert (G : lib_get (e_lib e) (default_name, default_name) = Some interaction_init).
  { clear HE. induction H; auto; [eapply call_lib_get; [left|]; eauto|eapply call_lib_get; [right|]; eauto|]. rewrite (step_lib _ _ _ H0). auto. }
  unfold get_interaction. destruct HE as [HE|[-> ->]].
  - unfold exist_interaction in HE. destruct (lib_get _ _); [discriminate|exact G].
  - change (pair_key default_name default_name) with (default_name, default_name). rewrite G. reflexivity.
Qed.
(** every interaction a program can look up has non-negative restitution and friction coefficients; looking up never raises *)
Theorem C57_nonnegative eig sd ok e A B : reach eig sd ok e ->
  exists i, get_interaction (e_lib e) A B = Some i /\ 0 <= i_eps i /\ 0 <= vx (i_mu i) /\ 0 <= vy (i_mu i) /\ 0 <= vz (i_mu i).
Proof.
  intros H. destruct (reach_wf _ _ _ _ H) as (_ & _ & _ & _ & _ & _ & _ & (ND & SF & DF) & _).
  assert (G : forall k i, lib_get (e_lib e) k = Some i -> interaction_sound i).
  { intros k i Hk. apply lib_get_in in Hk. rewrite Forall_forall in SF. apply (SF _ Hk). }
  unfold get_interaction. destruct (lib_get (e_lib e) (pair_key A B)) as [i|] eqn:E.
  - exists i. split; auto. apply (G _ _ E).
  - destruct (lib_get (e_lib e) (default_name, default_name)) as [i|] eqn:E2; [|congruence]. exists i. split; auto. apply (G _ _ E2).
Qed.
(** set_body_material succeeds exactly for materials that occur in an interaction; negative coefficients are rejected *)
Theorem C57_material eig sd ok e n m : reach eig sd ok e -> In n (map b_name (e_bodies e)) ->
  ((exists B, exist_interaction (e_lib e) m B = true) <-> exists e', set_body_material e n m = Done e') /\
  ((forall B, exist_interaction (e_lib e) m B = false) -> set_body_material e n m = Raised e).
Proof.
  intros H Hn. assert (exists b, find_body e n = Some b) as [b Hb].
  { destruct (find_body e n) as [b|] eqn:E; eauto. apply (find_none b_name) in E. tauto. }
  destruct (reach_wf _ _ _ _ H) as (_ & _ & _ & _ & _ & _ & _ & (ND & SF & DF) & _).
  assert (G : (exists B, exist_interaction (e_lib e) m B = true) <-> exist_material (e_lib e) m = true).
  { unfold exist_material. rewrite existsb_exists. split.
    - intros (B & HB). unfold exist_interaction in HB. destruct (lib_get (e_lib e) (pair_key m B)) as [i|] eqn:E; [|discriminate]. apply lib_get_in in E. exists (pair_key m B, i). split; auto.
      unfold pair_key. destruct (name_ltb m B); cbn; rewrite name_eqb_refl; auto using orb_true_r.
    - intros ([[x y] i] & Hx & HE). cbn in HE. rewrite Forall_forall in SF. destruct (SF _ Hx) as [HO _]. cbn [fst snd] in HO.
      assert (HK : lib_get (e_lib e) (x, y) <> None). { intros N. apply lib_get_none in N. apply N. apply (in_map fst) in Hx. exact Hx. }
      assert (PK : pair_key x y = (x, y)). { unfold pair_key. destruct (name_ltb x y) eqn:E; auto. destruct (name_ltb_trichotomy x y) as [E1|[E1|E1]]; congruence. }
      apply orb_true_iff in HE. destruct HE as [HE|HE]; [exists y|exists x]; unfold exist_interaction.
      + destruct (name_eqb_spec m x); [subst|discriminate]. rewrite PK. destruct (lib_get (e_lib e) (x, y)); congruence.
      + destruct (name_eqb_spec m y); [subst|discriminate]. rewrite (pair_key_comm y x), PK. destruct (lib_get (e_lib e) (x, y)); congruence. }
  unfold set_body_material. rewrite Hb. rewrite G. split.
  - destruct (exist_material (e_lib e) m); split; intros HH; eauto; try discriminate. destruct HH as [e' HH]; discriminate.
  - intros HN. destruct (exist_material (e_lib e) m) eqn:E; auto. destruct (proj2 G eq_refl) as [B HB]. congruence.
Qed.
Theorem C57_rejects e A B eps mu : eps < 0 \/ vx mu < 0 \/ vy mu < 0 \/ vz mu < 0 -> create_surfaces_interaction e A B eps mu = Raised e.
Proof.
  intros H. unfold create_surfaces_interaction. destruct (exist_interaction _ _ _); auto.
  destruct (Rltb_spec eps 0); auto. destruct (Rltb_spec (vx mu) 0); auto. destruct (Rltb_spec (vy mu) 0); auto. destruct (Rltb_spec (vz mu) 0); auto. lra.
Qed.
Example C57_nonvacuous : exists e, create_surfaces_interaction create_engine [66%nat] [65%nat] (1/2) (mkV 1 2 0) = Done e /\
  exist_interaction (e_lib e) [65%nat] [66%nat] = true /\ exist_interaction (e_lib e) [65%nat] [65%nat] = false.
Proof.
  unfold create_surfaces_interaction. cbn [vx vy vz]. replace (exist_interaction _ _ _) with false by reflexivity.
  destruct (Rltb_spec (1/2) 0); [lra|]. destruct (Rltb_spec 1 0); [lra|]. destruct (Rltb_spec 2 0); [lra|]. destruct (Rltb_spec 0 0); [lra|]. eexists. split; [reflexivity|]. split; reflexivity.
Qed.
Print Assumptions C57_created. Print Assumptions C57_material.

(** * C58 *)
Lemma model_shift b s p r : vsub (model_to_world (with_pose b r (b_q b)) s p) r = vsub (model_to_world b s p) (b_r b).
Proof. unfold model_to_world, with_pose; cbn. generalize (q_rotate (b_q b) (q_rotate (q_conj (sh_q s)) (vsub p (sh_r s)))) (b_r b). intros a c. vring. Qed.
Lemma model_origin b s : is_unit (sh_q s) -> model_to_world b s vzero = vsub (b_r b) (q_rotate (q_prod (b_q b) (q_conj (sh_q s))) (sh_r s)).
Proof.
  intros _. unfold model_to_world. rewrite q_rotate_prod. replace (vsub vzero (sh_r s)) with (vopp (sh_r s)) by vring. rewrite !q_rotate_opp.
  generalize (q_rotate (b_q b) (q_rotate (q_conj (sh_q s)) (sh_r s))) (b_r b). vring.
Qed.
(** set_position(use_model_frame=True): the origin of the model frame is at r, the whole body is translated *)
Theorem C58_set_position eig sd ok e n r e' : reach eig sd ok e -> set_position e n r true = Done e' ->
  exists b s b', find_body e n = Some b /\ b_shape b = Some s /\ find_body e' n = Some b' /\ b_shape b' = Some s /\ b_q b' = b_q b /\
    model_to_world b' s vzero = r /\
    (forall p, vsub (model_to_world b' s p) r = vsub (model_to_world b s p) (model_to_world b s vzero)) /\
    only_body e e' n (fun b => with_pose b (b_r b') (b_q b)).
Proof.
  intros HR H. pose proof (reach_wf _ _ _ _ HR) as W. unfold set_position in H. destruct (find_body e n) as [b|] eqn:E; [|discriminate]. destruct (b_shape b) as [s|] eqn:Es; [|discriminate].
  destruct (find_body_sound _ _ _ W E) as ((UQ & HS & _) & _). pose proof (wf_shape_unit _ _ W (HS s Es)) as US.
  apply done_eq in H. set (r' := vadd _ r) in H. exists b, s, (with_pose b r' (b_q b)).
  pose proof (upd_only e n (fun b => with_pose b r' (b_q b)) (fun _ => eq_refl)) as O. rewrite H. pose proof O as (_ & O2 & _). rewrite O2, E. cbn [option_map b_shape b_q b_r with_pose].
  assert (MO : model_to_world (with_pose b r' (b_q b)) s vzero = r).
  { rewrite model_origin by auto. cbn [b_r b_q with_pose]. unfold r'. generalize (q_rotate (q_prod (b_q b) (q_conj (sh_q s))) (sh_r s)) r. vring. }
  do 5 (split; [auto|]). split; [exact MO|]. split; [|exact O].
  intros p. rewrite <- MO at 1. pose proof (model_shift b s p r') as M1. pose proof (model_shift b s vzero r') as M2.
  revert M1 M2. generalize (model_to_world (with_pose b r' (b_q b)) s p) (model_to_world (with_pose b r' (b_q b)) s vzero) (model_to_world b s p) (model_to_world b s vzero) (b_r b). clear.
  intros [a0 a1 a2] [b0 b1 b2] [c0 c1 c2] [d0 d1 d2] [f0 f1 f2] M1 M2. destruct r' as [r0 r1 r2]. unfold vsub in *; cbn in *. injection M1; injection M2; intros. f_equal; lra.
Qed.
(** set_orientation(use_model_frame=True): the model frame has orientation q/|q|, its origin stays where it was *)
Theorem C58_set_orientation eig sd ok e n q e' : reach eig sd ok e -> set_orientation e n q true = Done e' ->
  exists b s b', find_body e n = Some b /\ b_shape b = Some s /\ find_body e' n = Some b' /\ b_shape b' = Some s /\
    model_to_world b' s vzero = model_to_world b s vzero /\
    (forall p, model_to_world b' s p = vadd (q_rotate (q_unit q) p) (model_to_world b s vzero)) /\
    only_body e e' n (fun b => with_pose b (b_r b') (b_q b')).
Proof.
  intros HR H. pose proof (reach_wf _ _ _ _ HR) as W. unfold set_orientation in H. destruct (find_body e n) as [b|] eqn:E; [|discriminate]. destruct (b_shape b) as [s|] eqn:Es; [|discriminate].
  destruct (find_body_sound _ _ _ W E) as ((UQ & HS & _) & _). pose proof (wf_shape_unit _ _ W (HS s Es)) as US.
  apply done_eq in H. set (r' := vadd _ _) in H. set (q' := q_prod _ _) in H. exists b, s, (with_pose b r' q').
  pose proof (upd_only e n (fun b => with_pose b r' q') (fun _ => eq_refl)) as O. rewrite H. pose proof O as (_ & O2 & _). rewrite O2, E. cbn [option_map b_shape b_q b_r with_pose].
  assert (G : forall p, model_to_world (with_pose b r' q') s p = vadd (q_rotate (q_unit q) p) (model_to_world b s vzero)).
  { intros p. rewrite model_origin by auto. unfold model_to_world. cbn [b_q b_r with_pose]. unfold q'. rewrite q_rotate_prod, q_rotate_inv_r by auto. rewrite q_rotate_sub. unfold r'.
    generalize (q_rotate (q_unit q) p) (q_rotate (q_unit q) (sh_r s)) (b_r b) (q_rotate (q_prod (b_q b) (q_conj (sh_q s))) (sh_r s)). vring. }
  do 4 (split; [auto|]). split; [|split; [exact G|exact O]].
  rewrite G. replace (q_rotate (q_unit q) vzero) with vzero; [generalize (model_to_world b s vzero); vring|].
  rewrite q_rotate_formula. destruct (q_unit q) as [s0 x y z]. qunf. f_equal; ring.
Qed.
Print Assumptions C58_set_position. Print Assumptions C58_set_orientation.

(** * C59 *)
Lemma socket_anchor b o q : is_unit (b_q b) -> anchor b (make_socket b o q) = o /\ axis_w b (make_socket b o q) = q_rotate q v3_k.
Proof.
  intros U. unfold anchor, axis_w, sk_arm, sk_axis, make_socket; cbn [sk_frame xr xq]. rewrite q_rotate_inv_r by auto.
  rewrite q_rotate_prod, q_rotate_inv_r by auto. split; auto. generalize o (b_r b). vring.
Qed.
Lemma find_map_named {A} (nm : A -> name) (g : A -> A) l m : (forall x, nm (g x) = nm x) ->
  find (fun a => name_eqb (nm a) m) (map g l) = option_map g (find (fun a => name_eqb (nm a) m) l).
Proof. intros G. induction l as [|x l IH]; cbn; auto. rewrite G. destruct (name_eqb (nm x) m); auto. Qed.
Lemma requested_world mode P o s x y : hinge_world mode P o s = Some (x, y) <-> requested mode P o s x y.
Proof.
  assert (R0 : forall q, q_rotate q vzero = vzero). { intros q. rewrite q_rotate_formula. destruct q as [s0 a b c]. qunf. f_equal; ring. }
  unfold hinge_world, requested. destruct mode.
  - split; [intros H; injection H as <- <-; auto|intros [-> ->]; auto].
  - assert (E : vsub (body_to_world P s) (body_to_world P vzero) = q_rotate (b_q P) s).
    { unfold body_to_world. rewrite R0. generalize (q_rotate (b_q P) s) (b_r P). vring. }
    rewrite E. unfold body_to_world. split; [intros H; injection H as <- <-; auto|intros [-> ->]; auto].
  - destruct (b_shape P) as [sh|]; [|split; [discriminate|intros (? & H & _); discriminate]].
    assert (E : vsub (model_to_world P sh s) (model_to_world P sh vzero) = q_rotate (b_q P) (q_rotate (q_conj (sh_q sh)) s)).
    { unfold model_to_world. rewrite !q_rotate_sub, !R0. generalize (q_rotate (b_q P) (q_rotate (q_conj (sh_q sh)) s)) (q_rotate (b_q P) (q_rotate (q_conj (sh_q sh)) (sh_r sh))) (b_r P). vring. }
    split; [intros H; injection H as <- <-; exists sh; rewrite E; unfold model_to_world; auto|].
    intros (s' & Hs' & -> & ->). injection Hs' as <-. rewrite E. reflexivity.
  - split; [discriminate|tauto].
Qed.
(** set_hinge in any mode: both sockets have their origin at the requested world point and their axis along the requested
    direction, so the joint error is zero; no body and no other hinge changes *)
Theorem C59_set_hinge eig sd ok e hn pn cn o s mode e' : reach eig sd ok e -> set_hinge e hn pn cn o s mode = Done e' ->
  exists P C h sp sc ow sw, find_body e pn = Some P /\ find_body e cn = Some C /\ requested mode P o s ow sw /\ sw <> vzero /\
    find_hinge e' hn = Some h /\ h_sockets h = Some (sp, sc) /\ sk_body sp = pn /\ sk_body sc = cn /\
    anchor P sp = ow /\ anchor C sc = ow /\ axis_w P sp = vdiv sw (vnorm sw) /\ axis_w C sc = vdiv sw (vnorm sw) /\
    hinge_gap e' h = Some (vzero, 0, 0) /\
    e_bodies e' = e_bodies e /\ map h_name (e_hinges e') = map h_name (e_hinges e) /\ (forall m, m <> hn -> find_hinge e' m = find_hinge e m).
Proof.
  intros HR H. pose proof (reach_wf _ _ _ _ HR) as W. unfold set_hinge in H.
  destruct (find_hinge e hn) as [h|] eqn:Eh; [|discriminate]. destruct (find_body e pn) as [P|] eqn:EP; [|discriminate]. destruct (find_body e cn) as [C|] eqn:EC; [|discriminate].
  destruct (hinge_world mode P o s) as [[ow sw]|] eqn:EW; [|discriminate]. destruct (make_orthonormal_vectors sw) as [[[t b] n]|] eqn:EO; [|discriminate].
  destruct (hinge_frame sw t b n EO) as (q & Eq & HU & En & Ek). rewrite Eq in H. apply done_eq in H. subst e'.
  assert (Hs : sw <> vzero).
  { intros ->. unfold make_orthonormal_vectors in EO. destruct (Reqb_spec (vnorm vzero) 0) as [E|E]; [discriminate|]. apply E. unfold vnorm, vzero, vdot; cbn. replace (0*0+0*0+0*0) with 0 by ring. apply sqrt_0. }
  destruct (find_body_sound _ _ _ W EP) as ((UP & _) & _ & NP). destruct (find_body_sound _ _ _ W EC) as ((UC & _) & _ & NC).
  destruct (socket_anchor P ow q UP) as [AP XP]. destruct (socket_anchor C ow q UC) as [AC XC].
  pose proof (find_some h_name _ _ _ Eh) as [Hh Nh].
  match goal with |- context [map ?f (e_hinges e)] => set (g := f) end.
  assert (GN : forall x, h_name (g x) = h_name x) by (intros x; unfold g; destruct (name_eqb _ _); reflexivity).
  assert (FH : forall m, find_hinge (set_hinges e (map g (e_hinges e))) m = option_map g (find_hinge e m)).
  { intros m. unfold find_hinge. cbn [e_hinges set_hinges]. apply find_map_named. auto. }
  exists P, C, (mkHinge (h_name h) (h_idx h) (Some (make_socket P ow q, make_socket C ow q))), (make_socket P ow q), (make_socket C ow q), ow, sw.
  split; [auto|]. split; [auto|]. split; [apply requested_world; auto|]. split; [exact Hs|].
  split. { rewrite FH, Eh. cbn [option_map]. unfold g. rewrite Nh, name_eqb_refl. reflexivity. }
  split; [reflexivity|]. split; [exact NP|]. split; [exact NC|]. split; [exact AP|]. split; [exact AC|].
  split; [rewrite XP, Ek; exact En|]. split; [rewrite XC, Ek; exact En|]. split.
  { unfold hinge_gap. cbn [h_sockets]. cbn [sk_body make_socket]. rewrite NP, NC.
    change (find_body (set_hinges e (map g (e_hinges e)))) with (find_body e). rewrite EP, EC.
    fold (axis_w P (make_socket P ow q)). fold (axis_w C (make_socket C ow q)). fold (anchor P (make_socket P ow q)). fold (anchor C (make_socket C ow q)). rewrite XP, XC, AP, AC, Ek.
    assert (Hn : n <> vzero). { intros Z. rewrite En in Z. pose proof (vdiv_norm_unit sw Hs) as V1. rewrite Z in V1. unfold vzero, vdot in V1; cbn in V1. lra. }
    assert (N1 : vdot n n = 1) by (rewrite En; apply vdiv_norm_unit; auto).
    destruct (orthonormal_spec n Hn) as (t' & b' & n' & E' & En' & _). rewrite E'.
    assert (NN : n' = n). { rewrite En'. unfold vnorm. rewrite N1, sqrt_1. clear. destruct n; unfold vdiv; cbn. f_equal; field. }
    rewrite NN. f_equal. f_equal; [f_equal|]; clear; [destruct ow; unfold vsub, vzero; cbn; f_equal; ring| |]; destruct n as [n0 n1 n2]; [destruct t' as [t0 t1 t2]|destruct b' as [t0 t1 t2]]; unfold vdot, vcross; cbn; ring. }
  split; [reflexivity|]. split; [cbn; rewrite map_map; apply map_ext; auto|].
  intros m Hm. rewrite FH. destruct (find_hinge e m) as [h'|] eqn:E'; auto. cbn. f_equal. pose proof (find_some h_name _ _ _ E') as [_ N']. unfold g. rewrite name_eqb_neq by congruence. reflexivity.
Qed.
(** and when it does not return: a name is unknown, the mode is unknown, the model frame is asked for without a shape, or the axis is zero *)
Theorem C59_when eig sd ok e hn pn cn o s mode : reach eig sd ok e ->
  (exists e', set_hinge e hn pn cn o s mode = Done e') <->
  In hn (map h_name (e_hinges e)) /\ In cn (map b_name (e_bodies e)) /\ exists P ow sw, find_body e pn = Some P /\ requested mode P o s ow sw /\ sw <> vzero.
Proof.
  intros HR. split.
  - intros [e' H]. destruct (C59_set_hinge _ _ _ _ _ _ _ _ _ _ _ HR H) as (P & C & h & sp & sc & ow & sw & A1 & A2 & A3 & A4 & A5 & _ & _ & _ & _ & _ & _ & _ & _ & _ & A6 & _).
    split; [|split; [|eauto 10]].
    + rewrite <- A6. apply (find_some h_name) in A5 as [A5 <-]. apply in_map. auto.
    + apply (find_some b_name) in A2 as [A2 <-]. apply in_map. auto.
  - intros (H1 & H2 & P & ow & sw & H3 & H4 & H5). unfold set_hinge.
    destruct (find_hinge e hn) as [h|] eqn:Eh; [|apply (find_none h_name) in Eh; tauto]. rewrite H3.
    destruct (find_body e cn) as [C|] eqn:EC; [|apply (find_none b_name) in EC; tauto]. apply requested_world in H4. rewrite H4.
    destruct (orthonormal_spec sw H5) as (t & b & n & E & _). rewrite E. destruct (hinge_frame sw t b n E) as (q & Eq & _). rewrite Eq. eauto.
Qed.
Example C59_nonvacuous eig sd : exists e e', reach eig sd (fun _ => True) e /\ set_hinge e [72%nat] [65%nat] [66%nat] (mkV 1 2 3) (mkV 0 2 0) Body = Done e'.
Proof.
  pose (e1 := set_bodies create_engine [body_init [65%nat] 0]). pose (e2 := set_bodies create_engine [body_init [65%nat] 0; body_init [66%nat] 1]).
  pose (e3 := set_hinges e2 [mkHinge [72%nat] 0 None]).
  assert (R1 : reach eig sd (fun _ => True) e1) by (apply (reach_done eig sd _ (CreateBody [65%nat]) create_engine); [constructor; auto|exact I|reflexivity]).
  assert (R2 : reach eig sd (fun _ => True) e2) by (apply (reach_done eig sd _ (CreateBody [66%nat]) e1); [auto|exact I|reflexivity]).
  assert (R3 : reach eig sd (fun _ => True) e3) by (apply (reach_done eig sd _ (CreateHinge [72%nat]) e2); [auto|exact I|reflexivity]).
  exists e3. destruct (proj2 (C59_when eig sd _ e3 [72%nat] [65%nat] [66%nat] (mkV 1 2 3) (mkV 0 2 0) Body R3)) as [e' H]; [|eauto].
  split; [cbn; auto|]. split; [cbn; auto|]. eexists _, _, _. split; [reflexivity|]. split; [split; reflexivity|].
  unfold body_to_world. cbn [b_q b_r body_init]. rewrite !q_rotate_id. intros E. apply (f_equal vy) in E. cbn in E. lra.
Qed.
Print Assumptions C59_set_hinge.
