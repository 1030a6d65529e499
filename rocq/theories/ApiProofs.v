(** Proofs about the rigid body interface *)
From Verif Require Import Base QuatModel VecModel VecProofs BvhModel GridModel VolModel RigidTypes CollModel BaryModel QuatProofs QuatMatProofs
  MassModel MassSpec MassProofs2 StepModel StepProofs StepProofs2 ReadyProofs ApiModel ConSpec ApiSpec.
Open Scope R_scope.

(** ** names *)
Lemma name_eqb_refl a : name_eqb a a = true.
Proof. destruct (name_eqb_spec a a); congruence. Qed.
Lemma name_eqb_neq a b : a <> b -> name_eqb a b = false.
Proof. destruct (name_eqb_spec a b); congruence. Qed.
Lemma name_ltb_irrefl a : name_ltb a a = false.
Proof. induction a as [|x a IH]; cbn [name_ltb]; auto. rewrite Nat.ltb_irrefl, Nat.eqb_refl, IH. reflexivity. Qed.
Lemma name_ltb_trichotomy a b : name_ltb a b = true \/ a = b \/ name_ltb b a = true.
Proof.
  revert b. induction a as [|x a IH]; intros [|y b]; cbn [name_ltb]; auto.
  destruct (Nat.ltb_spec x y), (Nat.ltb_spec y x); cbn [name_ltb]; auto; try lia. assert (x = y) by lia. subst y. rewrite Nat.eqb_refl. cbn [orb andb].
  destruct (IH b) as [H1|[H1|H1]]; auto. subst; auto.
Qed.
Lemma name_ltb_asym a b : name_ltb a b = true -> name_ltb b a = false.
Proof.
  revert b. induction a as [|x a IH]; intros [|y b]; cbn [name_ltb]; auto; try discriminate. rewrite orb_true_iff, andb_true_iff.
  intros [H|[H1 H2]].
  - apply Nat.ltb_lt in H. destruct (Nat.ltb_spec y x); [lia|]. destruct (Nat.eqb_spec y x); [lia|]. reflexivity.
  - apply Nat.eqb_eq in H1. subst y. rewrite Nat.ltb_irrefl, Nat.eqb_refl, (IH b H2). reflexivity.
Qed.
Lemma sorted_pair_key A B : sorted_key A B = pair_key A B.
Proof.
  unfold sorted_key, pair_key. destruct (name_ltb_trichotomy A B) as [H|[H|H]].
  - rewrite H, (name_ltb_asym _ _ H). reflexivity.
  - subst B. rewrite name_ltb_irrefl. reflexivity.
  - rewrite H, (name_ltb_asym _ _ H). reflexivity.
Qed.
Lemma pair_key_comm A B : pair_key A B = pair_key B A.
Proof.
  unfold pair_key. destruct (name_ltb_trichotomy A B) as [H|[H|H]].
  - rewrite H, (name_ltb_asym _ _ H). reflexivity.
  - subst B. reflexivity.
  - rewrite H, (name_ltb_asym _ _ H). reflexivity.
Qed.
Lemma pair_key_sorted A B : name_ltb (snd (pair_key A B)) (fst (pair_key A B)) = false.
Proof.
  unfold pair_key. destruct (name_ltb A B) eqn:E; cbn; [apply name_ltb_asym; auto|exact E].
Qed.
Lemma lkey_eqb_spec a b : reflect (a = b) (RigidTypes.key_eqb a b).
Proof.
  destruct a as [a1 a2], b as [b1 b2]. unfold RigidTypes.key_eqb; cbn.
  destruct (name_eqb_spec a1 b1), (name_eqb_spec a2 b2); cbn; constructor; congruence.
Qed.
Lemma lib_get_set L k i k' : lib_get (lib_set L k i) k' = if RigidTypes.key_eqb k k' then Some i else lib_get L k'.
Proof.
  induction L as [|[k0 i0] L IH]; cbn.
  - destruct (RigidTypes.key_eqb k k'); reflexivity.
  - destruct (lkey_eqb_spec k0 k) as [->|N]; cbn.
    + destruct (lkey_eqb_spec k k'); reflexivity.
    + rewrite IH. destruct (lkey_eqb_spec k0 k') as [->|]; auto. destruct (lkey_eqb_spec k k'); [congruence|reflexivity].
Qed.
Lemma lib_set_new L k i : lib_get L k = None -> lib_set L k i = L ++ [(k, i)].
Proof.
  induction L as [|[k0 i0] L IH]; cbn; auto. destruct (lkey_eqb_spec k0 k); [discriminate|]. intros H. rewrite IH; auto.
Qed.
Lemma lib_get_in L k i : lib_get L k = Some i -> In (k, i) L.
Proof.
  induction L as [|[k0 i0] L IH]; cbn; [discriminate|]. destruct (lkey_eqb_spec k0 k); [intros H; injection H as <-; subst; auto|auto].
Qed.
Lemma lib_get_none L k : lib_get L k = None <-> ~ In k (map fst L).
Proof.
  induction L as [|[k0 i0] L IH]; cbn; [tauto|]. destruct (lkey_eqb_spec k0 k); [split; [discriminate|tauto]|]. rewrite IH. tauto.
Qed.

(** ** dictionaries of objects *)
Lemma find_none {A} (nm : A -> name) l n : find (fun a => name_eqb (nm a) n) l = None <-> ~ In n (map nm l).
Proof.
  induction l as [|a l IH]; cbn; [tauto|]. destruct (name_eqb_spec (nm a) n) as [E|E]; [split; [discriminate|tauto]|]. rewrite IH. tauto.
Qed.
Lemma find_some {A} (nm : A -> name) l n a : find (fun a => name_eqb (nm a) n) l = Some a -> In a l /\ nm a = n.
Proof. intros H. apply List.find_some in H as [H1 H2]. split; auto. destruct (name_eqb_spec (nm a) n); congruence. Qed.
Lemma nodup_snoc {A} (nm : A -> name) l a : NoDup (map nm l) -> ~ In (nm a) (map nm l) -> NoDup (map nm (l ++ [a])).
Proof.
  intros H N. rewrite map_app. cbn. induction l as [|x l IH]; cbn in *; [repeat constructor; auto|]. inversion H; subst.
  constructor; [|apply IH; auto]. rewrite in_app_iff. cbn. intros [?|[?|[]]]; auto.
Qed.
Lemma find_app_new {A} (nm : A -> name) l a n : find (fun a => name_eqb (nm a) n) l = None -> nm a = n ->
  forall m, find (fun a => name_eqb (nm a) m) (l ++ [a]) = if name_eqb n m then Some a else find (fun a => name_eqb (nm a) m) l.
Proof.
  intros H <- m. induction l as [|x l IH]; cbn in *.
  - destruct (name_eqb (nm a) m); reflexivity.
  - destruct (name_eqb_spec (nm x) (nm a)) as [E|E]; [discriminate|]. destruct (name_eqb_spec (nm x) m) as [E'|E'].
    + destruct (name_eqb_spec (nm a) m); [congruence|reflexivity].
    + apply IH; auto.
Qed.
Lemma upd_names e n f : (forall b, b_name (f b) = b_name b) -> map b_name (e_bodies (upd_body e n f)) = map b_name (e_bodies e).
Proof.
  intros H. unfold upd_body, set_bodies; cbn. rewrite map_map. apply map_ext. intros b. destruct (name_eqb _ _); auto.
Qed.
Lemma upd_only e n f : (forall b, b_name (f b) = b_name b) -> only_body e (upd_body e n f) n f.
Proof.
  intros H. split; [|split; [|split; [apply upd_names; auto|repeat split]]].
  - intros m Hm. unfold find_body, upd_body, set_bodies; cbn. induction (e_bodies e) as [|b l IH]; cbn; auto.
    destruct (name_eqb_spec (b_name b) n) as [E|E].
    + rewrite H, E, name_eqb_neq by auto. auto.
    + destruct (name_eqb (b_name b) m); auto.
  - unfold find_body, upd_body, set_bodies; cbn. induction (e_bodies e) as [|b l IH]; cbn; auto.
    destruct (name_eqb_spec (b_name b) n) as [E|E].
    + rewrite H, E, name_eqb_refl. reflexivity.
    + rewrite name_eqb_neq by auto. auto.
Qed.
Lemma upd_in e n f b' : In b' (e_bodies (upd_body e n f)) -> exists b, In b (e_bodies e) /\ (b' = b \/ (b_name b = n /\ b' = f b)).
Proof.
  unfold upd_body, set_bodies; cbn. rewrite in_map_iff. intros (b & E & Hb). exists b. split; auto. destruct (name_eqb_spec (b_name b) n); auto.
Qed.
Lemma upd_indexed e n f : (forall b, b_idx (f b) = b_idx b) -> bodies_indexed e -> bodies_indexed (upd_body e n f).
Proof.
  intros H HI k b' Hk. unfold upd_body, set_bodies in Hk; cbn in Hk. rewrite nth_error_map in Hk. destruct (nth_error (e_bodies e) k) as [b|] eqn:E; [|discriminate].
  cbn in Hk. injection Hk as <-. destruct (name_eqb _ _); [rewrite H|]; apply HI; auto.
Qed.
Lemma nth_snoc {A} (l : list A) a k x : nth_error (l ++ [a]) k = Some x -> nth_error l k = Some x \/ (k = length l /\ x = a).
Proof.
  intros H. destruct (Nat.lt_ge_cases k (length l)) as [L|L].
  - rewrite nth_error_app1 in H by auto. auto.
  - rewrite nth_error_app2 in H by auto. destruct (k - length l)%nat as [|m] eqn:E; cbn in H; [right; split; [lia|congruence]|destruct m; discriminate].
Qed.
Lemma q_conj_is_unit q : is_unit q -> is_unit (q_conj q).
Proof. destruct q. unfold is_unit, q_conj. vunf. lra. Qed.

(** ** well-formed engines *)
Lemma wf_upd e n f : (forall b, b_name (f b) = b_name b) -> (forall b, b_idx (f b) = b_idx b) ->
  (forall b, In b (e_bodies e) -> b_name b = n -> body_sound e b -> body_sound e (f b)) ->
  well_formed e -> well_formed (upd_body e n f).
Proof.
  intros HN HI HB (U & IB & IH & SB & SH & SF & SS & SL & ST).
  split. { destruct U as (U1 & U2 & U3 & U4). repeat split; auto. rewrite upd_names; auto. }
  split. { apply upd_indexed; auto. } split; [exact IH|].
  split. { apply Forall_forall. intros b' Hb'. apply upd_in in Hb' as (b & Hb & [->|[E ->]]); rewrite Forall_forall in SB.
    - exact (SB b Hb). - exact (HB b Hb E (SB b Hb)). }
  split. { rewrite Forall_forall in *. intros h Hh sp sc Hs. rewrite upd_names by auto. apply (SH h Hh); auto. }
  split; [exact SF|]. split; [exact SS|]. split; [exact SL|exact ST].
Qed.
Lemma wf_create_body e n e' : well_formed e -> create_rigid_body e n = Done e' -> well_formed e'.
Proof.
  intros (U & IB & IH & SB & SH & SF & SS & SL & ST). unfold create_rigid_body. destruct (find_body e n) eqn:E; [discriminate|]. intros H. injection H as <-.
  apply (find_none b_name) in E. destruct U as (U1 & U2 & U3 & U4).
  split. { repeat split; auto. cbn. apply nodup_snoc; auto. }
  split. { intros k b Hk. cbn in Hk. apply nth_snoc in Hk as [Hk|[-> ->]]; [apply IB; auto|reflexivity]. }
  split; [exact IH|]. split.
  { cbn. apply Forall_app. split; [exact SB|]. constructor; [|constructor]. unfold body_sound, body_init; cbn. split; [unfold is_unit, q_identity, qdot; cbn; ring|].
    split; [discriminate|]. split; [constructor|]. split; [tauto|].
    destruct SL as (_ & _ & D). destruct (lib_get _ _) as [i|] eqn:EL; [|congruence]. apply lib_get_in in EL. unfold exist_material. apply existsb_exists. eexists. split; [exact EL|]. cbn. reflexivity. }
  split. { rewrite Forall_forall in *. intros h Hh sp sc Hs. cbn. rewrite map_app, !in_app_iff. destruct (SH h Hh sp sc Hs) as (A & B & C & D). auto. }
  split; [exact SF|]. split; [exact SS|]. split; [exact SL|exact ST].
Qed.
Lemma wf_create_hinge e n e' : well_formed e -> create_hinge e n = Done e' -> well_formed e'.
Proof.
  intros (U & IB & IH & SB & SH & SF & SS & SL & ST). unfold create_hinge. destruct (find_hinge e n) eqn:E; [discriminate|]. intros H. injection H as <-.
  apply (find_none h_name) in E. destruct U as (U1 & U2 & U3 & U4).
  split. { repeat split; auto. cbn. apply nodup_snoc; auto. }
  split; [exact IB|]. split. { intros k b Hk. cbn in Hk. apply nth_snoc in Hk as [Hk|[-> ->]]; [apply IH; auto|reflexivity]. }
  split; [exact SB|]. split. { cbn. apply Forall_app. split; [exact SH|]. constructor; [|constructor]. intros sp sc Hs. discriminate. }
  split; [exact SF|]. split; [exact SS|]. split; [exact SL|exact ST].
Qed.
Lemma make_frame_rotation t b n : vdot t t = 1 -> vdot b b = 1 -> vdot n n = 1 -> vdot t b = 0 -> vdot b n = 0 -> vdot n t = 0 -> vcross t b = n ->
  is_rotation (make_from_cols t b n).
Proof.
  intros. set (M := make_from_cols t b n). assert (O : mmul (mT M) M = mid).
  { unfold M, make_from_cols. destruct t, b, n. vunf. f_equal; lra. }
  destruct (orth_right M O) as [O' _]. split; auto. transitivity (vdot (vcross t b) n). { unfold M, make_from_cols. destruct t, b, n. vunf. ring. } rewrite H5. auto.
Qed.
(** the frame that set_hinge builds around a non-zero axis *)
Lemma hinge_frame s t b n : make_orthonormal_vectors s = Some (t, b, n) ->
  exists q, q_from_matrix (make_from_cols t b n) = Some q /\ is_unit q /\ n = vdiv s (vnorm s) /\ q_rotate q v3_k = n.
Proof.
  intros H. assert (Hs : s <> vzero).
  { intros ->. unfold make_orthonormal_vectors in H. destruct (Reqb_spec (vnorm vzero) 0) as [E|E]; [discriminate|]. apply E. unfold vnorm, vzero, vdot; cbn. replace (0*0+0*0+0*0) with 0 by ring. apply sqrt_0. }
  destruct (orthonormal_spec s Hs) as (t' & b' & n' & E & En & A1 & A2 & A3 & A4 & A5 & A6 & A7). rewrite H in E. injection E; intros <- <- <-.
  destruct (from_matrix_correct _ (make_frame_rotation t b n A1 A2 A3 A4 A5 A6 A7)) as (q & Eq & HU & EM). exists q. split; auto. split; auto. split; auto.
  rewrite <- umat_rotate, EM by auto. unfold make_from_cols, v3_k. destruct t, b, n. vunf. f_equal; ring.
Qed.
Lemma wf_set_hinge e hn pn cn o s m e' : well_formed e -> set_hinge e hn pn cn o s m = Done e' -> well_formed e'.
Proof.
  intros (U & IB & IH & SB & SH & SF & SS & SL & ST). unfold set_hinge. destruct (find_hinge e hn) as [h|] eqn:Eh; [|discriminate].
  destruct (find_body e pn) as [P|] eqn:EP; [|discriminate]. destruct (find_body e cn) as [C|] eqn:EC; [|discriminate].
  destruct (hinge_world m P o s) as [[o' s']|]; [|discriminate]. destruct (make_orthonormal_vectors s') as [[[t b] n]|] eqn:EO; [|discriminate].
  destruct (hinge_frame s' t b n EO) as (q & Eq & HU & _). rewrite Eq. intros H. injection H as <-.
  apply (find_some b_name) in EP as [HP NP], EC as [HC NC]. rewrite Forall_forall in SB. pose proof (SB P HP) as (UP & _). pose proof (SB C HC) as (UC & _).
  assert (HN : map h_name (map (fun h' => if name_eqb (h_name h') hn then mkHinge (h_name h') (h_idx h') (Some (make_socket P o' q, make_socket C o' q)) else h') (e_hinges e)) = map h_name (e_hinges e)).
  { rewrite map_map. apply map_ext. intros x. destruct (name_eqb _ _); reflexivity. }
  split. { destruct U as (U1 & U2 & U3 & U4). repeat split; auto. cbn. rewrite HN. auto. }
  split; [exact IB|]. split.
  { intros k x Hk. cbn in Hk. rewrite nth_error_map in Hk. destruct (nth_error (e_hinges e) k) as [y|] eqn:E; [|discriminate]. cbn in Hk. injection Hk as <-. destruct (name_eqb _ _); cbn; apply IH; auto. }
  split. { apply Forall_forall. exact SB. }
  split. { cbn. apply Forall_map. rewrite Forall_forall in *. intros x Hx. destruct (name_eqb _ _); [|exact (SH x Hx)].
    intros sp sc Hs. cbn in Hs. injection Hs; intros <- <-. cbn. split; [apply in_map; auto|]. split; [apply in_map; auto|].
    split; apply is_unit_prod; auto; apply q_conj_is_unit; auto. }
  split; [exact SF|]. split; [exact SS|]. split; [exact SL|exact ST].
Qed.
Lemma wf_create_shape eig sd e n V T f e' : well_formed e -> eig_good eig V T -> fst (create_shape eig sd e n V T f) = Done e' -> well_formed e'.
Proof.
  intros (U & IB & IH & SB & SH & SF & SS & SL & ST) HE. unfold create_shape. destruct (find_shape e n) eqn:E; [discriminate|].
  destruct (compute_mass_properties V T 1) as [p|] eqn:Ep; [|discriminate]. specialize (HE p Ep). cbv zeta in HE.
  destruct (xform_model_2_body_space eig p) as [[[[r q] m] Ib]|] eqn:Ex; [|discriminate].
  assert (HQ : is_unit q).
  { unfold xform_model_2_body_space in Ex. destruct (translate_to_body p) as [r' pb]. cbn [snd] in HE. destruct (rotate_to_model_spec eig pb HE) as (q' & d' & Er & HU & _). rewrite Er in Ex. cbn in Ex. injection Ex; intros; subst. auto. }
  destruct (shape_boundary _ _); [|discriminate]. destruct (create_signed_distance _ _ _ _ _ _) as [g|]; [|discriminate]. cbn. intros H. injection H as <-.
  apply (find_none sh_name) in E. destruct U as (U1 & U2 & U3 & U4).
  split. { repeat split; auto. cbn. apply nodup_snoc; auto. }
  split; [exact IB|]. split; [exact IH|]. split.
  { rewrite Forall_forall in *. intros b Hb. destruct (SB b Hb) as (A & B & C). split; auto. split; [|exact C]. intros s Hs. cbn. apply in_app_iff. auto. }
  split; [exact SH|]. split; [exact SF|]. split; [|split; [exact SL|exact ST]]. cbn. apply Forall_app. split; auto.
Qed.
Lemma vunit_norm v : vnorm v <> 0 -> vnorm (v3_unit v) = 1.
Proof.
  intros H. assert (v <> vzero). { intros ->. apply H. unfold vnorm, vzero, vdot; cbn. replace (0*0+0*0+0*0) with 0 by ring. apply sqrt_0. }
  unfold v3_unit. pose proof (vdiv_norm_unit v H0) as E. unfold vnorm at 1. rewrite E. apply sqrt_1.
Qed.
Lemma wf_new_force e f : well_formed e -> find_force e (force_name f) = None -> force_sound f -> well_formed (set_forces e (e_forces e ++ [f])).
Proof.
  intros (U & IB & IH & SB & SH & SF & SS & SL & ST) E HF. apply (find_none force_name) in E. destruct U as (U1 & U2 & U3 & U4).
  split. { repeat split; auto. cbn. apply nodup_snoc; auto. }
  split; [exact IB|]. split; [exact IH|]. split.
  { rewrite Forall_forall in *. intros b Hb. destruct (SB b Hb) as (A & B & C & D & F). split; auto. split; [exact B|]. split; [exact C|]. split; [|exact F]. intros x Hx. cbn. apply in_app_iff. auto. }
  split; [exact SH|]. split; [cbn; apply Forall_app; split; auto|]. split; [exact SS|]. split; [exact SL|exact ST].
Qed.
Lemma exist_material_app L x m : exist_material L m = true -> exist_material (L ++ x) m = true.
Proof. unfold exist_material. rewrite existsb_app. intros ->. reflexivity. Qed.
Lemma wf_interaction e A B eps mu e' : well_formed e -> create_surfaces_interaction e A B eps mu = Done e' -> well_formed e'.
Proof.
  intros (U & IB & IH & SB & SH & SF & SS & SL & ST). unfold create_surfaces_interaction, exist_interaction.
  destruct (lib_get (e_lib e) (pair_key A B)) eqn:E; [discriminate|]. destruct (Rltb_spec eps 0); [discriminate|]. destruct (Rltb_spec (vx mu) 0); [discriminate|]. destruct (Rltb_spec (vy mu) 0); [discriminate|]. destruct (Rltb_spec (vz mu) 0); [discriminate|].
  rewrite sorted_pair_key, lib_set_new by auto. intros H. injection H as <-.
  split; [exact U|]. split; [exact IB|]. split; [exact IH|]. split.
  { rewrite Forall_forall in *. intros b Hb. destruct (SB b Hb) as (A1 & B1 & C & D & F). split; auto. split; [exact B1|]. split; [exact C|]. split; [exact D|]. cbn. apply exist_material_app. auto. }
  split; [exact SH|]. split; [exact SF|]. split; [exact SS|]. split; [|exact ST].
  destruct SL as (L1 & L2 & L3). unfold library_sound. cbn [e_lib set_lib]. split.
  { rewrite map_app. cbn. apply lib_get_none in E. clear -L1 E. induction (map fst (e_lib e)) as [|x l IH]; cbn in *; [repeat constructor; auto|]. inversion L1; subst. constructor; [|apply IH; auto]. rewrite in_app_iff. cbn. intros [?|[?|[]]]; auto. }
  split. { apply Forall_app. split; auto. constructor; [|constructor]. cbn. split; [apply pair_key_sorted|]. unfold interaction_sound; cbn. lra. }
  rewrite <- (lib_set_new (e_lib e) (pair_key A B) (mkInter mu eps)) by auto. rewrite lib_get_set. destruct (RigidTypes.key_eqb _ _); [discriminate|auto].
Qed.
Lemma raised_same eig sd c e e' : run_call eig sd c e = Raised e' -> (forall b s, c <> ConnectShape b s) -> e' = e.
Proof.
  intros H N. destruct c; cbn in H.
  all: try (exfalso; eapply N; reflexivity).
  all: unfold create_rigid_body, create_hinge, set_hinge, create_shape, create_gravity_force, create_damping_force, connect_force, set_position, set_orientation, set_velocity, set_spin, set_mass_properties, set_body_type, set_body_material, create_surfaces_interaction in H.
  all: repeat match type of H with
       | context [match ?x with _ => _ end] => destruct x; cbn [fst] in H; try discriminate H
       | Raised ?a = Raised ?b => injection H; intros; subst; reflexivity
       end.
Qed.
Lemma find_body_sound e n b : well_formed e -> find_body e n = Some b -> body_sound e b /\ In b (e_bodies e) /\ b_name b = n.
Proof.
  intros (_ & _ & _ & SB & _) H. apply (find_some b_name) in H as [H1 H2]. rewrite Forall_forall in SB. auto.
Qed.
Lemma wf_shape_unit e s : well_formed e -> In s (e_shapes e) -> is_unit (sh_q s).
Proof. intros (_ & _ & _ & _ & _ & _ & SS & _) H. rewrite Forall_forall in SS. auto. Qed.
Lemma names_unique_body e b b' : well_formed e -> In b (e_bodies e) -> In b' (e_bodies e) -> b_name b = b_name b' -> b = b'.
Proof.
  intros ((U & _) & _) H H' E. clear -U H H' E. induction (e_bodies e) as [|x l IH]; cbn in *; [tauto|]. inversion U; subst.
  destruct H as [->|H], H' as [->|H']; auto.
  - exfalso. apply H2. rewrite E. apply in_map; auto. - exfalso. apply H2. rewrite <- E. apply in_map; auto.
Qed.
Lemma wf_call eig sd c e e' : well_formed e -> call_fine eig c -> run_call eig sd c e = Done e' -> well_formed e'.
Proof.
  intros W HF H. destruct c; cbn in H.
  - eapply wf_create_body; eauto.
  - eapply wf_create_hinge; eauto.
  - eapply wf_set_hinge; eauto.
  - eapply wf_create_shape; eauto.
  - unfold connect_shape in H. destruct (find_body e b); [|discriminate]. destruct (find_shape e s) as [s'|] eqn:Es; [|discriminate]. destruct (make_bvh _ _ _ _ _); [|discriminate]. injection H as <-.
    apply (find_some sh_name) in Es as [Es _]. apply wf_upd; auto. intros x Hx _ (A & B & C & D & F). unfold body_sound; cbn. repeat (split; auto). intros s0 Hs0. injection Hs0 as <-. auto.
  - unfold create_gravity_force in H. destruct (find_force e n) eqn:E; [discriminate|]. destruct (Rleb_spec g 0); [discriminate|]. destruct (Reqb_spec (vnorm up) 0); [discriminate|]. injection H as <-.
    apply wf_new_force; auto. cbn. split; [lra|apply vunit_norm; auto].
  - unfold create_damping_force in H. destruct (find_force e n) eqn:E; [discriminate|]. destruct (Rleb_spec alpha 0); [discriminate|]. destruct (Rleb_spec beta 0); [discriminate|]. injection H as <-.
    apply wf_new_force; auto. cbn. lra.
  - unfold connect_force in H. destruct (find_body e b) as [x|] eqn:Eb; [|discriminate]. destruct (find_force e f) as [f'|] eqn:Ef; [|discriminate]. destruct (existsb _ _) eqn:EX; [discriminate|]. injection H as <-.
    apply (find_some force_name) in Ef as [Hf _]. destruct (find_body_sound e b x W Eb) as (_ & Hx & Nx). apply wf_upd; auto. intros y Hy Ny (A & B & C & D & F).
    assert (y = x) by (apply (names_unique_body e); auto; congruence). subst y. unfold body_sound; cbn. repeat (split; auto).
    + apply nodup_snoc; auto. rewrite in_map_iff. intros (g & Eg & Hg). assert (existsb (fun f'0 => name_eqb (force_name f'0) (force_name f')) (b_forces x) = true); [|congruence].
      apply existsb_exists. exists g. split; auto. rewrite Eg. apply name_eqb_refl.
    + intros g Hg. apply in_app_iff in Hg as [Hg|[<-|[]]]; auto.
  - unfold set_position in H. destruct (find_body e b) as [x|]; [|discriminate]. destruct model; [destruct (b_shape x); [|discriminate]|]; injection H as <-; apply wf_upd; auto.
  - unfold set_orientation in H. destruct (find_body e b) as [x|] eqn:Eb; [|discriminate]. destruct (find_body_sound e b x W Eb) as ((_ & SX & _) & Hx & Nx). destruct model; [destruct (b_shape x) as [s|] eqn:Es; [|discriminate]|]; injection H as <-; apply wf_upd; auto; intros y Hy Ny (A & B & C); (split; [cbn|split; [exact B|exact C]]).
    + apply is_unit_prod; [apply q_unit_is_unit|]. apply (wf_shape_unit e); auto.
    + apply q_unit_is_unit.
  - unfold set_velocity in H. destruct (find_body e b); [|discriminate]. injection H as <-. apply wf_upd; auto.
  - unfold set_spin in H. destruct (find_body e b); [|discriminate]. injection H as <-. apply wf_upd; auto.
  - unfold set_mass_properties in H. destruct (find_body e b) as [x|]; [|discriminate]. destruct (b_shape x); [|discriminate]. injection H as <-. apply wf_upd; auto.
  - unfold set_body_type in H. destruct (find_body e b); [|discriminate]. destruct (existsb _ _); [|destruct (existsb _ _); [|discriminate]]; injection H as <-; apply wf_upd; auto.
  - unfold set_body_material in H. destruct (find_body e b); [|discriminate]. destruct (exist_material _ _) eqn:E; [|discriminate]. injection H as <-. apply wf_upd; auto.
    intros x Hx _ (A & B & C & D & F). unfold body_sound; cbn. repeat (split; auto).
  - eapply wf_interaction; eauto.
Qed.
Lemma wf_raised eig sd c e e' : well_formed e -> run_call eig sd c e = Raised e' -> well_formed e'.
Proof.
  intros W H. destruct c; try (assert (e' = e) by (eapply raised_same; [exact H|intros; discriminate]); subst; exact W).
  cbn in H. unfold connect_shape in H. destruct (find_body e b); [|injection H as <-; auto]. destruct (find_shape e s) as [s'|] eqn:Es; [|injection H as <-; auto]. destruct (make_bvh _ _ _ _ _); [discriminate|]. injection H as <-.
  apply (find_some sh_name) in Es as [Es _]. apply wf_upd; auto. intros x Hx _ (A & B & C & D & F). unfold body_sound; cbn. repeat (split; auto). intros s0 Hs0. injection Hs0 as <-. auto.
Qed.
Lemma wf_step dt e e' : well_formed e -> step dt e = Some e' -> well_formed e'.
Proof.
  intros (U & IB & IH & SB & SH & SF & SS & SL & ST) H. destruct (step_decompose _ _ _ _ _ run_cd_ok H) as (t & HF). 
  pose proof HF as (_ & Hc & _ & _ & _ & _ & _ & _ & _ & He'). destruct (run_cd_ok _ _ Hc) as (HB & E1 & E2 & E3 & E4 & E5 & E6).
  assert (LN : length (e_bodies e') = length (e_bodies e)). { rewrite He'. cbn. unfold copy_to_bodies. rewrite map_length, enum_length. symmetry. apply (Forall2_len _ _ _ HB). }
  assert (SBD : forall k b', nth_error (e_bodies e') k = Some b' -> exists b, nth_error (e_bodies e) k = Some b /\ same_static b b' /\ (is_unit (b_q b) -> is_unit (b_q b'))).
  { intros k b' Hk. destruct (nth_error (e_bodies e) k) as [b|] eqn:Eb. 2:{ apply nth_error_None in Eb. assert (k < length (e_bodies e'))%nat by (apply nth_error_Some; congruence). lia. }
    destruct (step_body _ _ _ _ _ _ _ _ run_cd_ok HF Eb) as (b2 & Hb2 & S1 & S2 & S3). rewrite Hk in Hb2. injection Hb2 as <-. exists b. split; auto. split; auto.
    destruct (b_fixed b); [destruct (S2 eq_refl) as (_ & -> & _); auto|intros _; apply S3; auto]. }
  assert (NM : map b_name (e_bodies e') = map b_name (e_bodies e)).
  { apply nth_ext with (d := []) (d' := []); [rewrite !map_length; auto|]. intros k Hk. rewrite map_length in Hk. destruct (nth_error (e_bodies e') k) as [b'|] eqn:Eb; [|apply nth_error_None in Eb; lia].
    destruct (SBD k b' Eb) as (b & Hb & (HN & _) & _). erewrite (nth_error_nth (map b_name (e_bodies e'))) by (rewrite nth_error_map, Eb; reflexivity). erewrite (nth_error_nth (map b_name (e_bodies e))) by (rewrite nth_error_map, Hb; reflexivity). auto. }
  assert (EE : e_forces e' = e_forces e /\ e_shapes e' = e_shapes e /\ e_hinges e' = e_hinges e /\ e_lib e' = e_lib e /\ e_stepper e' = e_stepper e).
  { rewrite He'. cbn. auto. } destruct EE as (F1 & F2 & F3 & F4 & F5).
  split. { unfold unique_names. rewrite NM, F1, F2, F3. exact U. }
  split. { intros k b' Hk. destruct (SBD k b' Hk) as (b & Hb & (_ & HI & _) & _). rewrite HI. apply IB; auto. }
  split. { intros k h. rewrite F3. apply IH. }
  split. { apply Forall_forall. intros b' Hb'. apply In_nth_error in Hb' as [k Hk]. destruct (SBD k b' Hk) as (b & Hb & (S1 & S2 & S3 & S4 & S5 & S6 & S7 & S8) & SU). rewrite Forall_forall in SB. destruct (SB b (nth_error_In _ _ Hb)) as (A & B & C & D & F).
    unfold body_sound. rewrite S5, S7, S8, F1, F2, F4. auto. }
  split. { rewrite Forall_forall in *. intros h Hh sp sc Hs. rewrite F3 in Hh. rewrite NM. apply (SH h Hh); auto. }
  rewrite F1, F2, F4, F5. auto.
Qed.
Lemma reach_wf eig sd ok e : reach eig sd ok e -> well_formed e.
Proof.
  induction 1.
  - split. { repeat split; constructor. } split. { intros [|k] b Hk; discriminate. } split. { intros [|k] b Hk; discriminate. }
    split; [constructor|]. split; [constructor|]. split; [constructor|]. split; [constructor|]. split; [|reflexivity].
    split; [repeat constructor; auto|]. split; [|discriminate]. constructor; [|constructor]. cbn. split; auto. unfold interaction_sound, interaction_init; cbn. lra.
  - exact IHreach.
  - eapply wf_call; eauto.
  - eapply wf_raised; eauto.
  - eapply wf_step; eauto.
Qed.
