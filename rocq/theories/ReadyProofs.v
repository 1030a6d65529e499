(** A step never raises on a ready engine and leaves it ready. *)
From Verif Require Import Base QuatModel VecModel VecProofs BvhModel BvhSpec BvhProofs GridModel GridProofs VolModel ProxModel SolverModel SolverProofs
  QuatProofs RigidTypes RigidSpec CollModel StepModel StepProofs StepProofs2 Prop_Geometry Prop_Grid ReadySpec.
Open Scope R_scope.

Lemma name_eqb_spec a b : reflect (a = b) (name_eqb a b).
Proof.
  revert b. induction a as [|x a IH]; destruct b as [|y b]; cbn; try (constructor; congruence).
  destruct (Nat.eqb_spec x y); cbn; [|constructor; congruence]. destruct (IH b); constructor; congruence.
Qed.
Lemma find_body_in e n : In n (map b_name (e_bodies e)) -> exists b, find_body e n = Some b /\ In b (e_bodies e).
Proof.
  intros H. apply in_map_iff in H as (b & <- & Hb). unfold find_body. destruct (find _ (e_bodies e)) as [b'|] eqn:E.
  - exists b'. split; auto. apply find_some in E. tauto.
  - exfalso. apply (find_none _ _ E b) in Hb. destruct (name_eqb_spec (b_name b) (b_name b)); congruence.
Qed.
Lemma map_opt_total {A B} (f : A -> option B) l : (forall a, In a l -> exists b, f a = Some b) -> exists r, map_opt f l = Some r.
Proof.
  induction l as [|a l IH]; intros H; cbn; [eauto|]. destruct (H a (or_introl eq_refl)) as [b ->].
  destruct IH as [r ->]; [intros; apply H; right; auto|]. eauto.
Qed.
Lemma map_opt_in {A B} (f : A -> option B) l : forall r b, map_opt f l = Some r -> In b r -> exists a, In a l /\ f a = Some b.
Proof.
  induction l as [|a l IH]; intros r b H Hb; cbn in H.
  - assert (r = []) by congruence. subst. destruct Hb.
  - destruct (f a) as [b0|] eqn:E; [|discriminate]. destruct (map_opt f l) as [bs|] eqn:E2; [|discriminate].
    assert (r = b0 :: bs) by congruence. subst. destruct Hb as [<-|Hb]; [exists a; split; [left|]; auto|].
    destruct (IH _ _ eq_refl Hb) as (a' & H1 & H2). exists a'; split; [right|]; auto.
Qed.

(** ** meshes *)
Lemma py_get_map {A B} (f : A -> B) l i : py_get (map f l) i = option_map f (py_get l i).
Proof. unfold py_get, py_idx. rewrite map_length. destruct (_ || _)%bool; auto. apply nth_error_map. Qed.
Lemma gather_map f V el : gather (map f V) el = option_map (map f) (gather V el).
Proof.
  induction el as [|i el IH]; cbn; auto. rewrite py_get_map. destruct (py_get V i); cbn; auto. rewrite IH. destruct (gather V el); reflexivity.
Qed.
Lemma valid_mesh_map f V T : valid_mesh V T -> valid_mesh (map f V) T.
Proof. intros H el Hel. destruct (H el Hel) as [vs E]. rewrite gather_map, E. cbn. eauto. Qed.
Lemma rotate_array_map q V : exists f, q_rotate_array q V = map f V.
Proof. unfold q_rotate_array, q_prod_array_l, q_prod_array_r. rewrite !map_map. eexists. reflexivity. Qed.
Lemma world_valid b s T : valid_mesh (sh_V s) T -> valid_mesh (world_vertices b s) T.
Proof.
  intros H. unfold world_vertices. destruct (rotate_array_map (b_q b) (sh_V s)) as [f ->]. apply valid_mesh_map, valid_mesh_map, H.
Qed.
Lemma tri_corners_total V T t : valid_mesh V (map tri_list T) -> (0 <= t < Z.of_nat (length T))%Z -> exists ps, tri_corners V T t = Some ps.
Proof.
  intros HV Ht. unfold tri_corners. rewrite py_get_pos by lia.
  destruct (nth_error T (Z.to_nat t)) as [[[i j] k]|] eqn:E; [|apply nth_error_None in E; lia].
  destruct (HV (tri_list (i, j, k))) as [vs Hvs]; [apply in_map; eapply nth_error_In; eauto|].
  cbn in Hvs. destruct (py_get V i); [|discriminate]. destruct (py_get V j); [|discriminate]. destruct (py_get V k); [|discriminate]. eauto.
Qed.

(** ** grids *)
Lemma gradient_total g p : grid_ready g -> exists n, get_gradient g p = Some n.
Proof.
  intros (lo & hi & I & J & K & v & G & Hv & Hx & Hy & Hz). destruct (grid_of_ok _ _ _ _ _ _ G) as (E1 & _ & _ & _ & _ & O & _).
  eexists. apply (get_gradient_cell g v); auto; try (rewrite E1; auto). apply node_values_has; auto.
Qed.
Lemma value_total g p : grid_ready g -> exists n, get_value g p = Some n.
Proof. intros (lo & hi & I & J & K & v & G & Hv & _). eapply C25_total; eauto. Qed.
Lemma fw_loop_total grad tol ps : (forall p, exists g, grad p = Some g) -> forall n i x, exists y, fw_loop grad tol ps n i x = Some y.
Proof.
  intros H. induction n as [|n IH]; intros i x; cbn [fw_loop]; [eauto|]. destruct (H x) as [g ->]. cbv zeta.
  match goal with |- context [if ?c then _ else _] => destruct c end; eauto.
Qed.
Lemma fw_point_total grad tol n ps : (forall p, exists g, grad p = Some g) -> exists y, fw_point grad tol n ps = Some y.
Proof.
  intros H. unfold fw_point. destruct (H (pick3 ps 0)) as [g0 ->]. destruct (H (pick3 ps 1)) as [g1 ->]. destruct (H (pick3 ps 2)) as [g2 ->].
  apply fw_loop_total. auto.
Qed.
Lemma unit_of_pos n : 0 < vnorm n -> vnorm (v3_unit n) = 1.
Proof.
  intros H. unfold v3_unit, vnorm at 1. assert (n <> vzero). { intros ->. unfold vnorm, vdot in H; cbn in H. rewrite !Rmult_0_l, !Rplus_0_l, sqrt_0 in H. lra. }
  rewrite (vdiv_norm_unit n) by auto. apply sqrt_1.
Qed.
Lemma make_contact_unit A B p n g : vnorm n = 1 -> make_contact A B p n g = Some (mkContact A B p n g).
Proof.
  intros H. unfold make_contact. rewrite H. replace (1 - 1) with 0 by ring. rewrite Rabs_R0. destruct (Rltb_spec (1/10) 0); [lra|reflexivity].
Qed.
Lemma contact_of_point_total e A B g x : grid_ready g -> exists cs, contact_of_point e A B g x = Some cs /\
  forall c, In c cs -> c_A c = b_name B /\ c_B c = b_name A /\ vnorm (c_n c) = 1 /\ c_g c <= p_envelope (e_params e).
Proof.
  intros HG. unfold contact_of_point. assert (exists i, grid_is_inside g x (1/2) = Some i) as [i ->].
  { unfold grid_is_inside. destruct (Rltb_spec (1/2) 0); [lra|]. repeat match goal with |- context [if ?c then _ else _] => destruct c end; eauto. }
  destruct i; [|exists []; split; [auto|intros c []]]. destruct (value_total g x HG) as [phi ->].
  destruct (Rleb_spec phi (p_envelope (e_params e))); [|exists []; split; [auto|intros c []]]. destruct (gradient_total g x HG) as [n ->].
  cbv zeta. destruct (Rltb_spec 0 (vnorm (q_rotate (b_q B) n))) as [Hp|]; [|exists []; split; [auto|intros c []]].
  rewrite make_contact_unit by (apply unit_of_pos; auto). eexists; split; [reflexivity|]. intros c [<-|[]]. cbn. repeat split; auto. apply unit_of_pos; auto.
Qed.

(** the contacts a collision detection may report: named bodies and unit normals *)
Definition contact_fine (e : engine) (c : contact) : Prop :=
  In (c_A c) (map b_name (e_bodies e)) /\ In (c_B c) (map b_name (e_bodies e)) /\ vnorm (c_n c) = 1.

Definition shape_fine (b : body) : Prop :=
  exists s, b_shape b = Some s /\ valid_mesh (sh_V s) (map tri_list (sh_T s)) /\ grid_ready (sh_grid s).
Lemma compute_contacts_total e A B tris : shape_fine A -> shape_fine B ->
  (forall s t, b_shape A = Some s -> In t tris -> (0 <= t < Z.of_nat (length (sh_T s)))%Z) ->
  exists cs, compute_contacts e A B tris = Some cs /\
    forall c, In c cs -> c_A c = b_name B /\ c_B c = b_name A /\ vnorm (c_n c) = 1 /\ c_g c <= p_envelope (e_params e).
Proof.
  intros (sA & EA & VA & _) (sB & EB & _ & GB) Ht. unfold compute_contacts. rewrite EA, EB. cbv zeta.
  set (V := q_rotate_array (q_conj (b_q B)) (map (fun p => vsub p (b_r B)) (world_vertices A sA))).
  assert (HV : valid_mesh V (map tri_list (sh_T sA))).
  { unfold V. destruct (rotate_array_map (q_conj (b_q B)) (map (fun p => vsub p (b_r B)) (world_vertices A sA))) as [f ->].
    apply valid_mesh_map, valid_mesh_map, world_valid, VA. }
  match goal with |- context [map_opt ?h tris] => set (f := h) end.
  assert (Hf : forall t, In t tris -> exists cs, f t = Some cs /\
    forall c, In c cs -> c_A c = b_name B /\ c_B c = b_name A /\ vnorm (c_n c) = 1 /\ c_g c <= p_envelope (e_params e)).
  { intros t Hin. unfold f. destruct (tri_corners_total V (sh_T sA) t HV (Ht _ _ EA Hin)) as [ps ->].
    destruct (fw_point_total (get_gradient (sh_grid sB)) (p_opt_tol (e_params e)) (p_opt_iterations (e_params e)) ps) as [x ->].
    { intros p. apply gradient_total; auto. } apply contact_of_point_total; auto. }
  destruct (map_opt_total f tris) as [cs Hcs]. { intros t Hin. destruct (Hf t Hin) as (c & E & _). eauto. }
  rewrite Hcs. eexists; split; [reflexivity|]. intros c Hc. apply in_concat in Hc as (l & Hl & Hc).
  destruct (map_opt_in _ _ _ _ Hcs Hl) as (t & Hin & E). destruct (Hf t Hin) as (l' & E' & H). assert (l' = l) by congruence. subst. auto.
Qed.

(** ** collision detection *)
Lemma in_zinsert x l y : In y (zinsert x l) <-> y = x \/ In y l.
Proof.
  induction l as [|z l IH]; cbn; [intuition|]. destruct (Z.ltb_spec x z); cbn; [intuition|]. destruct (Z.eqb_spec x z); cbn; [subst; intuition|]. rewrite IH. intuition.
Qed.
Lemma in_np_unique l y : In y (np_unique l) <-> In y l.
Proof. induction l as [|x l IH]; cbn; [tauto|]. rewrite in_zinsert, IH. intuition. Qed.
Lemma in_combinations2 {A} (l : list A) a b : In (a, b) (combinations2 l) -> In a l /\ In b l.
Proof.
  induction l as [|x l IH]; cbn; [tauto|]. rewrite in_app_iff, in_map_iff. intros [(y & E & Hy)|H].
  - assert (x = a) by congruence. assert (y = b) by congruence. subst. auto.
  - apply IH in H. tauto.
Qed.

Lemma update_bvh_total e : engine_ready e -> exists e1, update_bvh e = Some e1 /\
  Forall2 bvh_only (e_bodies e) (e_bodies e1) /\ Forall (body_ready (p_K (e_params e))) (e_bodies e1) /\
  e_hinges e1 = e_hinges e /\ e_lib e1 = e_lib e /\ e_params e1 = e_params e.
Proof.
  intros (HK & HB & _ & _). unfold update_bvh. set (P := e_params e) in *.
  match goal with |- context [map_opt ?h _] => set (f := h) end.
  assert (Hf : forall b, In b (e_bodies e) -> exists b', f b = Some b' /\ bvh_only b b' /\ body_ready (p_K P) b').
  { intros b Hb. rewrite Forall_forall in HB. destruct (HB b Hb) as ((s & tr & N & X & env & E1 & HV & HG & E2 & HN & HR) & Hq & Hm).
    unfold f. rewrite E1, E2.
    destruct (C21_refit_succeeds _ _ _ _ _ _ (world_vertices b s) (p_envelope P) HK HN HR (world_valid b s _ HV)) as (tr' & Er & HR').
    rewrite Er. eexists; split; [reflexivity|]. split; [exists tr'; reflexivity|].
    split; [|cbn; auto]. exists s, tr', N, (world_vertices b s), (p_envelope P). cbn. auto 10. }
  destruct (map_opt_total f (e_bodies e)) as [bs Hbs]. { intros b Hb. destruct (Hf b Hb) as (b' & E & _). eauto. }
  rewrite Hbs. eexists; split; [reflexivity|]. cbn. assert (F : Forall2 (fun b b' => f b = Some b') (e_bodies e) bs) by (apply map_opt_inv; auto).
  split; [|split; auto].
  - clear -F Hf. revert Hf. induction F as [|b b' l l' H F IH]; intros Hf; constructor.
    + destruct (Hf b (or_introl eq_refl)) as (b2 & E & H2 & _). congruence.
    + apply IH. intros; apply Hf; right; auto.
  - apply Forall_forall. intros b' Hb'. destruct (map_opt_in _ _ _ _ Hbs Hb') as (b & Hb & E). destruct (Hf b Hb) as (b2 & E2 & _ & H). congruence.
Qed.

Lemma body_ready_shape K b : body_ready K b -> shape_fine b.
Proof. intros ((s & tr & N & X & env & E1 & HV & HG & _) & _). exists s. auto. Qed.

Lemma narrow_phase_total K e : supported_K K -> Forall (body_ready K) (e_bodies e) -> exists ov, narrow_phase e = Some ov /\
  forall A B rs, In ((A, B), rs) ov -> In A (e_bodies e) /\ In B (e_bodies e) /\
    forall i j, In (i, j) rs -> (forall s, b_shape A = Some s -> (0 <= i < Z.of_nat (length (sh_T s)))%Z) /\ (forall s, b_shape B = Some s -> (0 <= j < Z.of_nat (length (sh_T s)))%Z).
Proof.
  intros HK HB. unfold narrow_phase. rewrite Forall_forall in HB.
  match goal with |- context [map_opt ?h _] => set (f := h) end.
  assert (Hf : forall ab, In ab (combinations2 (e_bodies e)) -> exists r, f ab = Some (ab, r) /\
    forall i j, In (i, j) r -> (forall s, b_shape (fst ab) = Some s -> (0 <= i < Z.of_nat (length (sh_T s)))%Z) /\ (forall s, b_shape (snd ab) = Some s -> (0 <= j < Z.of_nat (length (sh_T s)))%Z)).
  { intros [A B] H. apply in_combinations2 in H as [HA HB'].
    destruct (HB A HA) as ((sA & trA & NA & XA & envA & EA & _ & _ & TA & HNA & RA) & _).
    destruct (HB B HB') as ((sB & trB & NB & XB & envB & EB & _ & _ & TB & HNB & RB) & _).
    destruct (C22_traversal_exact _ _ _ _ _ _ _ _ _ _ _ HK HNA HNB RA RB) as (r & Er & _ & Hr).
    exists r. unfold f. cbn [fst snd]. rewrite TA, TB, Er. split; [reflexivity|]. intros i j Hij. apply Hr in Hij as (H1 & H2 & _).
    rewrite map_length in H1, H2. split; intros s Es; [rewrite EA in Es|rewrite EB in Es]; injection Es as <-; auto. }
  destruct (map_opt_total f (combinations2 (e_bodies e))) as [rs Hrs]. { intros ab H. destruct (Hf ab H) as (r & E & _). eauto. }
  rewrite Hrs. eexists; split; [reflexivity|]. intros A B r Hin. apply filter_In in Hin as [Hin _].
  destruct (map_opt_in _ _ _ _ Hrs Hin) as (ab & Hab & E). destruct (Hf ab Hab) as (r' & E' & H). rewrite E' in E. injection E; intros; subst.
  apply in_combinations2 in Hab. cbn [fst snd] in H. tauto.
Qed.

Lemma contact_determination_total K e ov : Forall (body_ready K) (e_bodies e) ->
  (forall A B rs, In ((A, B), rs) ov -> In A (e_bodies e) /\ In B (e_bodies e) /\
    forall i j, In (i, j) rs -> (forall s, b_shape A = Some s -> (0 <= i < Z.of_nat (length (sh_T s)))%Z) /\ (forall s, b_shape B = Some s -> (0 <= j < Z.of_nat (length (sh_T s)))%Z)) ->
  exists cs, contact_determination ov e = Some (set_contacts e cs) /\ Forall (contact_fine e) cs.
Proof.
  intros HB Hov. unfold contact_determination. rewrite Forall_forall in HB.
  match goal with |- context [map_opt ?h _] => set (f := h) end.
  assert (Hf : forall o, In o ov -> exists cs, f o = Some cs /\ Forall (contact_fine e) cs).
  { intros [[A B] rs] Ho. destruct (Hov A B rs Ho) as (HA & HB' & Hr). unfold f.
    assert (FA := body_ready_shape _ _ (HB A HA)). assert (FB := body_ready_shape _ _ (HB B HB')).
    destruct (compute_contacts_total e A B (np_unique (map fst rs)) FA FB) as (c1 & E1 & H1).
    { intros s t Es Ht. apply in_np_unique, in_map_iff in Ht as ([i j] & <- & Hij). apply (proj1 (Hr i j Hij)); auto. }
    destruct (compute_contacts_total e B A (np_unique (map snd rs)) FB FA) as (c2 & E2 & H2).
    { intros s t Es Ht. apply in_np_unique, in_map_iff in Ht as ([i j] & <- & Hij). apply (proj2 (Hr i j Hij)); auto. }
    rewrite E1, E2. eexists; split; [reflexivity|]. apply Forall_app; split; apply Forall_forall; intros c Hc.
    - destruct (H1 c Hc) as (Ha & Hb & Hn & _). unfold contact_fine. rewrite Ha, Hb. auto using in_map.
    - destruct (H2 c Hc) as (Ha & Hb & Hn & _). unfold contact_fine. rewrite Ha, Hb. auto using in_map. }
  destruct (map_opt_total f ov) as [cs Hcs]. { intros o Ho. destruct (Hf o Ho) as (c & E & _). eauto. }
  rewrite Hcs. eexists; split; [reflexivity|]. apply Forall_forall. intros c Hc. apply in_concat in Hc as (l & Hl & Hc).
  destruct (map_opt_in _ _ _ _ Hcs Hl) as (o & Ho & E). destruct (Hf o Ho) as (l' & E' & H). assert (l' = l) by congruence. subst.
  rewrite Forall_forall in H. auto.
Qed.
Lemma reduction_sub cs : forall c, In c (contact_reduction cs) -> In c cs.
Proof.
  unfold contact_reduction. intros c. assert (G : forall acc, In c (fold_left (fun reduced cp1 => if existsb (same_contact cp1) reduced then reduced else reduced ++ [cp1]) cs acc) -> In c acc \/ In c cs).
  { induction cs as [|a cs IH]; intros acc; cbn [fold_left]; auto. intros H. apply IH in H. destruct (existsb (same_contact a) acc).
    - destruct H; [auto|right; right; auto].
    - destruct H as [H|H]; [|right; right; auto]. apply in_app_or in H as [H|[<-|[]]]; [auto|right; left; auto]. }
  intros H. apply G in H as [[]|H]. auto.
Qed.
Lemma cd_total e : engine_ready e -> exists e1, run_collision_detection e = Some e1 /\
  Forall2 bvh_only (e_bodies e) (e_bodies e1) /\ Forall (body_ready (p_K (e_params e))) (e_bodies e1) /\
  e_hinges e1 = e_hinges e /\ e_lib e1 = e_lib e /\ e_params e1 = e_params e /\ Forall (contact_fine e1) (e_contacts e1).
Proof.
  intros HR. destruct (update_bvh_total e HR) as (e1 & E1 & HO & HB & Hh & HL & HP). destruct HR as (HK & _).
  unfold run_collision_detection. rewrite E1. destruct (narrow_phase_total (p_K (e_params e)) e1 HK HB) as (ov & E2 & Hov). rewrite E2.
  destruct (contact_determination_total (p_K (e_params e)) e1 ov HB Hov) as (cs & E3 & Hcs). rewrite E3.
  eexists; split; [reflexivity|]. cbn. repeat match goal with |- _ /\ _ => split end; auto.
  apply Forall_forall. intros c Hc. apply reduction_sub in Hc. rewrite Forall_forall in Hcs. apply (Hcs c Hc).
Qed.

(** ** assembling the problems *)
Lemma names_same bs bs' : Forall2 bvh_only bs bs' -> map b_name bs' = map b_name bs.
Proof. induction 1 as [|b b' l l' [t ->] H IH]; cbn; congruence. Qed.
Lemma nonzero_norm n : vnorm n = 1 -> n <> vzero.
Proof. intros H ->. unfold vnorm, vdot in H; cbn in H. rewrite !Rmult_0_l, !Rplus_0_l, sqrt_0 in H. lra. Qed.
Lemma contact_entries_total e k c : contact_fine e c -> exists l, contact_entries e k c = Some l.
Proof.
  intros (HA & HB & Hn). unfold contact_entries. destruct (find_body_in e _ HA) as (A & -> & _). destruct (find_body_in e _ HB) as (B & -> & _).
  destruct (orthonormal_spec (c_n c)) as (t & b & n & -> & _); [apply nonzero_norm; auto|]. eauto.
Qed.
Lemma in_enum_in {A} (l : list A) k a : In (k, a) (enum l) -> In a l.
Proof. intros H. apply enum_in in H. eapply nth_error_In; eauto. Qed.
Lemma behavior_total e c : contact_fine e c -> lib_get (e_lib e) (default_name, default_name) <> None -> exists i, contact_behavior e c = Some i.
Proof.
  intros (HA & HB & _) HL. unfold contact_behavior. destruct (find_body_in e _ HA) as (A & -> & _). destruct (find_body_in e _ HB) as (B & -> & _).
  unfold get_interaction. destruct (lib_get (e_lib e) (pair_key _ _)); [eauto|]. destruct (lib_get (e_lib e) (default_name, default_name)); [eauto|congruence].
Qed.
Lemma contacts_initialize_total dt st e : dt <> 0 -> Forall (contact_fine e) (e_contacts e) -> lib_get (e_lib e) (default_name, default_name) <> None ->
  exists P, contacts_initialize dt st e = Some P.
Proof.
  intros Hdt HC HL. rewrite Forall_forall in HC. unfold contacts_initialize, contact_jacobian.
  destruct (map_opt_total (fun kc => contact_entries e (fst kc) (snd kc)) (enum (e_contacts e))) as [ts ->].
  { intros [k c] H. apply contact_entries_total. apply HC. eapply in_enum_in; eauto. }
  cbv zeta. unfold contact_error. destruct (negb (p_use_pre (e_params e))).
  2: destruct (Reqb_spec dt 0); [contradiction|].
  all: unfold restitution_vector, friction_vector; destruct (negb (p_use_bounce (e_params e)));
    [|destruct (map_opt_total (fun cp => do i <- contact_behavior e cp; Some (i_eps i)) (e_contacts e)) as [es ->];
      [intros c Hc; destruct (behavior_total e c (HC c Hc) HL) as [i ->]; eauto|]];
    (destruct (map_opt_total (fun cp => do i <- contact_behavior e cp; Some (vx (i_mu i))) (e_contacts e)) as [ms ->];
      [intros c Hc; destruct (behavior_total e c (HC c Hc) HL) as [i ->]; eauto|eauto]).
Qed.
Lemma unit_axis q s : is_unit q -> is_unit s -> q_rotate q (q_rotate s v3_k) <> vzero.
Proof.
  intros Hq Hs E. assert (D := q_rotate_dot q (q_rotate s v3_k) (q_rotate s v3_k)). rewrite E, q_rotate_dot in D.
  unfold is_unit in *. rewrite Hq, Hs in D. unfold vdot, vzero, v3_k in D; cbn in D. lra.
Qed.
Lemma hinge_parts e h : hinge_ready e h -> Forall (fun b => is_unit (b_q b)) (e_bodies e) ->
  exists sp sc P C t b n, h_sockets h = Some (sp, sc) /\ find_body e (sk_body sp) = Some P /\ find_body e (sk_body sc) = Some C /\
    make_orthonormal_vectors (q_rotate (b_q P) (sk_axis sp)) = Some (t, b, n).
Proof.
  intros (sp & sc & Es & Hu & HP & HC) HQ. destruct (find_body_in e _ HP) as (P & EP & IP). destruct (find_body_in e _ HC) as (C & EC & IC).
  rewrite Forall_forall in HQ. destruct (orthonormal_spec (q_rotate (b_q P) (sk_axis sp))) as (t & b & n & E & _).
  { apply unit_axis; auto. } exists sp, sc, P, C, t, b, n. auto.
Qed.
Lemma hinges_initialize_total dt st e : dt <> 0 -> Forall (hinge_ready e) (e_hinges e) -> Forall (fun b => is_unit (b_q b)) (e_bodies e) ->
  exists P, hinges_initialize dt st e = Some P.
Proof.
  intros Hdt HH HQ. rewrite Forall_forall in HH. unfold hinges_initialize, hinge_jacobian.
  destruct (map_opt_total (hinge_entries e) (e_hinges e)) as [ts ->].
  { intros h Hh. unfold hinge_entries. destruct (hinge_parts e h (HH h Hh) HQ) as (sp & sc & P & C & t & b & n & -> & -> & -> & ->). eauto. }
  cbv zeta. unfold hinge_error. destruct (negb (p_use_pre (e_params e))); [eauto|].
  assert (G : forall hs g, (forall h, In h hs -> hinge_ready e h) -> exists g', hinge_error_loop e hs g = Some g').
  { induction hs as [|h hs IH]; intros g H; cbn [hinge_error_loop]; [eauto|]. unfold hinge_gap.
    destruct (hinge_parts e h (H h (or_introl eq_refl)) HQ) as (sp & sc & P & C & t & b & n & -> & -> & -> & ->).
    cbv zeta. apply IH. intros; apply H; right; auto. }
  destruct (G (e_hinges e) vzeros HH) as [g ->]. destruct (Reqb_spec dt 0); [contradiction|]. eauto.
Qed.
Lemma copy_from_total e : Forall (body_ready (p_K (e_params e))) (e_bodies e) -> exists st, copy_from_engine e = Some st.
Proof.
  intros HB. unfold copy_from_engine, compute_inverse_mass_matrix. rewrite Forall_forall in HB.
  match goal with |- context [map_opt ?f ?l] => destruct (map_opt_total f l) as [bl ->] end; [|eauto].
  intros [k b] H. cbn [fst snd]. apply in_enum_in in H. destruct (HB b H) as (_ & _ & Hm). unfold inverse_mass_blocks.
  destruct (b_fixed b); [eauto|]. destruct (Hm eq_refl) as (M & X & Y & Z).
  destruct (Reqb_spec (b_mass b) 0); [contradiction|]. destruct (Reqb_spec (vx (b_inertia b)) 0); [contradiction|].
  destruct (Reqb_spec (vy (b_inertia b)) 0); [contradiction|]. destruct (Reqb_spec (vz (b_inertia b)) 0); [contradiction|]. cbn [orb]. eauto.
Qed.

(** a step, with any solver, succeeds and keeps the engine ready *)
Lemma step_total solver dt e : dt <> 0 -> engine_ready e ->
  exists e', step_with solver run_collision_detection dt e = Some e' /\ engine_ready e' /\ Forall (contact_fine e') (e_contacts e').
Proof.
  intros Hdt HR. destruct (cd_total e HR) as (e1 & E1 & HO & HB1 & Hh & HL & HP & HC). pose proof HR as (HK & HB & HH & HD).
  destruct (copy_from_total e HB) as [st Est].
  assert (HQ1 : Forall (fun b => is_unit (b_q b)) (e_bodies e1)). { eapply Forall_impl; [|exact HB1]. intros b (_ & Hq & _). auto. }
  assert (HN1 := names_same _ _ HO).
  assert (HH1 : Forall (hinge_ready e1) (e_hinges e1)).
  { rewrite Hh. eapply Forall_impl; [|exact HH]. intros h (sp & sc & A1 & A2 & A3 & A4). exists sp, sc. rewrite HN1. auto. }
  assert (HD1 : lib_get (e_lib e1) (default_name, default_name) <> None) by (rewrite HL; auto).
  assert (exists e', step_with solver run_collision_detection dt e = Some e') as [e' He'].
  { unfold step_with. rewrite Est, E1.
    destruct (contacts_initialize_total dt st e1 Hdt HC HD1) as [PC EC]. destruct (hinges_initialize_total dt st e1 Hdt HH1 HQ1) as [PH EH].
    rewrite EC, EH. destruct (e_contacts e1); destruct (e_hinges e1); eauto. }
  exists e'. split; auto.
  destruct (step_decompose _ _ _ _ _ run_cd_ok He') as (t & HF).
  assert (HS := HF). destruct HS as (_ & Hc & _ & _ & _ & _ & _ & _ & _ & Ee').
  assert (t_engine t = e1) by congruence. 
  assert (EP : e_params e' = e_params e1 /\ e_lib e' = e_lib e1 /\ e_hinges e' = e_hinges e1 /\ e_contacts e' = e_contacts e1 /\ map b_name (e_bodies e') = map b_name (e_bodies e1)).
  { rewrite Ee', H. cbn. repeat split. unfold copy_to_bodies. rewrite map_map.
    transitivity (map (fun kb : nat * body => b_name (snd kb)) (enum (e_bodies e1))). { apply map_ext. intros [k b]. reflexivity. }
    unfold enum. generalize 0%nat. clear. induction (e_bodies e1) as [|a l IHl]; intros n; cbn; [reflexivity|]. f_equal. apply IHl. }
  destruct EP as (P1 & P2 & P3 & P4 & P5). split.
  2:{ rewrite P4. eapply Forall_impl; [|exact HC]. intros c. unfold contact_fine. rewrite P5. auto. }
  unfold engine_ready. rewrite P1, P2, P3, HP, HL. split; [auto|]. split; [|split; auto].
  - apply Forall_forall. intros b' Hb'. apply In_nth_error in Hb' as [k Hk'].
    rewrite Ee', H in Hk'. cbn [e_bodies set_bodies] in Hk'. rewrite copy_nth in Hk'.
    destruct (nth_error (e_bodies e1) k) as [b1|] eqn:Hk1; [|discriminate].
    assert (Hk : exists b, nth_error (e_bodies e) k = Some b).
    { destruct (nth_error (e_bodies e) k) eqn:E0; [eauto|]. apply nth_error_None in E0. assert (LL := Forall2_len _ _ _ HO). apply nth_error_lt in Hk1. lia. }
    destruct Hk as [b Hk]. destruct (step_body _ _ _ _ _ _ _ _ run_cd_ok HF Hk) as (b2 & Hk2 & HS & HD2 & HF2).
    assert (b2 = b'). { rewrite Ee', H in Hk2. cbn [e_bodies set_bodies] in Hk2. rewrite copy_nth, Hk1 in Hk2. congruence. } subst b2.
    destruct (Forall2_nth _ _ _ _ _ HO Hk) as (b1' & Hk1' & [tr Etr]). assert (b1' = b1) by congruence. subst b1'.
    rewrite Forall_forall in HB1. destruct (HB1 b1 (nth_error_In _ _ Hk1)) as ((s & tr' & N & X & env & A1 & A2 & A3 & A4 & A5 & A6) & Hq & Hm).
    cbn [option_map] in Hk'. assert (b' = with_pose (with_vel b1 (b_v b') (b_w b')) (b_r b') (b_q b')) as Eb'.
    { injection Hk'; intros <-. reflexivity. }
    split; [|split].
    + exists s, tr', N, X, env. rewrite Eb'. cbn. auto 10.
    + rewrite Forall_forall in HB. destruct (HB b (nth_error_In _ _ Hk)) as (_ & Hqb & _).
      destruct (b_fixed b) eqn:Efix; [destruct (HD2 eq_refl) as (_ & -> & _); auto|]. apply (HF2 eq_refl).
    + rewrite Eb'. cbn. auto.
  - eapply Forall_impl; [|exact HH1]. intros h (sp & sc & B1 & B2 & B3 & B4). exists sp, sc. rewrite P5. auto.
Qed.
