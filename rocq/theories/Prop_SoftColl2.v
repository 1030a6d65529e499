(** Soft-body collision detection: it finds what touches (C134), removes repetitions only (C135); contact normals (C133). *)
From Verif Require Import Base ListProofs VecModel VecProofs BvhModel BvhSpec BvhProofs KdopProofs GridModel GridProofs SurfModel VolModel BaryModel RigidTypes StepModel CollModel HashModel HashProofs ConProofs MechModel FemModel FemSpec SoftModel SoftSpec SoftProofs SoftProofs2 SoftReach
  SoftFrame SoftCollModel SoftCollProofs ReadySpec ReadyProofs Prop_Geometry Prop_Grid Prop_Bary Prop_Volume Prop_Hash Prop_Contacts Prop_Detect Prop_Soft Prop_Soft3 Prop_SoftColl.
Open Scope R_scope.

(** ** C135 *)
Lemma NoDup_uid_inj (l : list scontact) : NoDup (map uid l) -> forall a b, In a l -> In b l -> uid a = uid b -> a = b.
Proof.
  induction l as [|x l IH]; intros HN a b Ha Hb E; [destruct Ha|]. cbn in HN. inversion HN as [|? ? N1 N2]; subst. destruct Ha as [<-|Ha], Hb as [<-|Hb]; auto.
  - exfalso. apply N1. rewrite E. apply in_map. exact Hb.
  - exfalso. apply N1. rewrite <- E. apply in_map. exact Ha.
Qed.
(** The reduced list contains only contacts of the original list; every contact of the original list has one, and only one,
    in the reduced list between the same two bodies in the same order and at the same position. *)
Theorem C135_reduction cs : let r := soft_contact_reduction cs in
  (forall c, In c r -> In c cs) /\
  (forall c, In c cs -> exists c', In c' r /\ sc_A c' = sc_A c /\ sc_B c' = sc_B c /\ sc_p c' = sc_p c) /\
  NoDup r /\ (forall c c', In c r -> In c' r -> sc_A c = sc_A c' -> sc_B c = sc_B c' -> sc_p c = sc_p c' -> c = c').
Proof.
  cbv zeta. destruct (reduction_step cs [] (NoDup_nil _)) as (H1 & H2 & H3 & _). fold (soft_contact_reduction cs) in *. split; [|split; [|split]].
  - intros c Hc. destruct (H2 c Hc) as [[]|H]; exact H.
  - intros c Hc. assert (In (uid c) (map uid (soft_contact_reduction cs))) as Hu by (apply H3; right; apply in_map; exact Hc). apply in_map_iff in Hu as (c' & E & Hc'). unfold uid in E. injection E as E1 E2 E3. exists c'. auto.
  - apply (NoDup_map_inv uid). exact H1.
  - intros c c' Hc Hc' EA EB EP. apply (NoDup_uid_inj _ H1 c c' Hc Hc'). unfold uid. congruence.
Qed.

(** the reduction looks at the order of the bodies: a contact found from both sides at the same point is kept twice *)
Definition r_contact (i j : nat) : scontact := mkSC i j 0 0 (1, 0, 0, 0) (1, 0, 0, 0) (mkV 1 2 3) (mkV 1 0 0) (-1).
Example C135_nonvacuous : soft_contact_reduction [r_contact 0 1; r_contact 0 1; r_contact 1 0] = [r_contact 0 1; r_contact 1 0].
Proof.
  unfold soft_contact_reduction. cbn [fold_left existsb app]. assert (E : same_uid (r_contact 0 1) (r_contact 0 1) = true) by (apply same_uid_iff; auto). rewrite E. cbn [orb existsb].
  assert (E' : same_uid (r_contact 1 0) (r_contact 0 1) = false) by reflexivity. rewrite E'. reflexivity.
Qed.
Print Assumptions C135_reduction.

(** ** C133: the contact normal *)
(** the tetrahedron el of a body is moved: its corners are carried by F and a translation *)
Definition carried (b : sbody) (el : elem) (F : mat3) (t : vec3) : Prop := forall a, s_x b (node el a) = vadd (mvec F (s_x0 b (node el a))) t.
Lemma edge_rows_carried b el F t : carried b el F t -> edge_rows (tet_corners (s_x b) el) = mmul (edge_rows (tet_corners (s_x0 b) el)) (mT F).
Proof.
  intros H. destruct el as [[[a0 a1] a2] a3]. pose proof (H 0%nat) as H0. pose proof (H 1%nat) as H1. pose proof (H 2%nat) as H2. pose proof (H 3%nat) as H3. cbn [node] in *.
  unfold tet_corners, edge_rows. rewrite H0, H1, H2, H3. generalize (s_x0 b a0) (s_x0 b a1) (s_x0 b a2) (s_x0 b a3). clear. intros [x0 y0 z0] [x1 y1 z1] [x2 y2 z2] [x3 y3 z3]. destruct F, t. unfold mmul, mT, mvec, vsub, vadd; cbn. f_equal; ring.
Qed.
Lemma mvec_mmul A B v : mvec (mmul A B) v = mvec A (mvec B v).
Proof. destruct A, B, v. unfold mvec, mmul; cbn. f_equal; ring. Qed.
(** If the first body's tetrahedron has not turned or deformed, but only been translated, the normal is the direction of the
    gradient of the distance field. *)
Theorem C133_normal_translation_partial P attrs enum hash cs hg e contacts cp A el t x0 g n : soft_cd P attrs enum hash cs hg e = Some contacts -> In cp contacts ->
  nth_error (sg_bodies e) (sc_A cp) = Some A -> nth_error (s_T A) (sc_tetA cp) = Some el -> carried A el mid t ->
  contact_point (sg_bodies e) s_x0 (sc_A cp) (sc_tetA cp) (sc_wA cp) = Some x0 -> nth_error (map ca_grid attrs) (sc_A cp) = Some g -> get_gradient g x0 = Some n ->
  sc_n cp = v3_unit n.
Proof.
  intros H Hin EA EL HC HX HG HN. destruct (soft_cd_inv _ _ _ _ _ _ _ _ _ H Hin) as (iA & iB & A' & B & aB & tr & r & HA & HB & HaB & HR & Hr).
  destruct (contact_of_pair_spec _ _ _ _ _ _ _ _ _ HR Hr) as (x & n' & kA & kB & elA & elB & ps & F). destruct F. rewrite cf_A, cf_tA in *.
  assert (B = A) by congruence. subst B. assert (elB = el) by (pose proof (owner_tet_nth _ _ _ _ cf_oB); congruence). subst elB.
  unfold contact_point in HX. rewrite EA, EL in HX. assert (x0 = x) by congruence. subst x0. rewrite nth_error_map, HaB in HG. cbn in HG. assert (ca_grid aB = g) by congruence. subst g. assert (n' = n) by congruence. subst n'.
  destruct cf_n as (s & Hs & ->). rewrite (edge_rows_carried _ _ _ _ HC). f_equal. rewrite <- Hs. f_equal. destruct (edge_rows (tet_corners (s_x0 A) el)). unfold mmul, mT, mid; cbn. f_equal; ring.
Qed.
Print Assumptions C133_normal_translation_partial.

(** ** C134: what touches is found *)
(** a body the collision detection can work on: completely created, its surface is that of its mesh, no tetrahedron is flat, neither in the
    world nor in the undeformed shape, and its distance field has a value at every node *)
Definition soft_ready (b : sbody) (a : cattr) : Prop :=
  ready b = true /\ s_surface b = surface_tris (s_T b) /\ FemSpec.valid_mesh (s_n b) (s_T b) /\
  (forall el, In el (s_T b) -> elem_volume (s_x b) el <> 0 /\ elem_volume (s_x0 b) el <> 0) /\ grid_ready (ca_grid a).
(** its bounding volume hierarchy was built over its surface triangles, and possibly refitted *)
Definition bvh_ready (P : cparams) (b : sbody) (a : cattr) : Prop :=
  exists tr N X env, ca_bvh a = Some tr /\ (1 <= N)%Z /\ bvh_reach (soft_elements b) (cp_K P) N tr X env.
(** q0 is where the point q of the world, as a point of the tetrahedron el, is in the undeformed shape *)
Definition material_image (b : sbody) (el : elem) (q q0 : vec3) : Prop := exists w, wsum w = 1 /\ interpolate (s_x b) el w = q /\ interpolate (s_x0 b) el w = q0.
(** The world triangle ps probes the distance field gB of body B at the world point p: the search along the triangle in the
    undeformed shape of B (through the tetrahedron el) ends at the image of p, at least 1/2 inside the grid's box, where the
    distance is phi, at most the envelope, and the gradient is n, not zero. *)
Definition soft_probe (P : cparams) (B : sbody) (el : elem) (gB : grid) (ps : vec3 * vec3 * vec3) (p : vec3) (phi : R) (n : vec3) : Prop :=
  let '(p0, p1, p2) := ps in exists q0 q1 q2 x,
    material_image B el p0 q0 /\ material_image B el p1 q1 /\ material_image B el p2 q2 /\
    fw_point (get_gradient gB) (cp_tolerance P) (cp_iterations P) (q0, q1, q2) = Some x /\ material_image B el p x /\
    grid_is_inside gB x (1/2) = Some true /\ get_value gB x = Some phi /\ phi <= cp_envelope P /\ get_gradient gB x = Some n /\ n <> vzero.

Lemma elem_volume_quad x el : elem_volume x el = quad_vol (tet_corners x el) / 6.
Proof. destruct el as [[[a b] c] d]. unfold elem_volume, corners, tet_corners, quad_vol, vol6, tri_normal. cbn [node]. generalize (x a) (x b) (x c) (x d). intros [x0 y0 z0] [x1 y1 z1] [x2 y2 z2] [x3 y3 z3]. vunf. field. Qed.
Lemma volume_quad x el : elem_volume x el <> 0 -> quad_vol (tet_corners x el) <> 0.
Proof. rewrite elem_volume_quad. intros H E. apply H. rewrite E. field. Qed.
Lemma image_bary b el q q0 : elem_volume (s_x b) el <> 0 -> material_image b el q q0 -> exists w, quad_bary (tet_corners (s_x b) el) q = Some w /\ quad_comb (tet_corners (s_x0 b) el) w = q0.
Proof.
  intros HV (w & S & E1 & E2). apply volume_quad in HV. destruct (quad_bary_total _ q HV) as (w' & E). destruct (quad_bary_spec _ _ _ E) as (_ & _ & _ & U). rewrite <- quad_comb_interpolate in E1, E2.
  rewrite (U w S E1) in E2. eauto.
Qed.
Lemma image_bary0 b el q q0 : elem_volume (s_x0 b) el <> 0 -> material_image b el q q0 -> exists w, quad_bary (tet_corners (s_x0 b) el) q0 = Some w /\ quad_comb (tet_corners (s_x b) el) w = q.
Proof.
  intros HV (w & S & E1 & E2). apply volume_quad in HV. destruct (quad_bary_total _ q0 HV) as (w' & E). destruct (quad_bary_spec _ _ _ E) as (_ & _ & _ & U). rewrite <- quad_comb_interpolate in E1, E2.
  rewrite (U w S E2) in E1. eauto.
Qed.
Lemma owners_length T : length (owners T) = length (surface_tris T).
Proof. unfold owners, surface_tris. cbv zeta. rewrite !map_length. reflexivity. Qed.
Lemma owner_total b t : s_surface b = surface_tris (s_T b) -> (t < length (s_surface b))%nat -> exists k el, owner_tet b (Z.of_nat t) = Some (k, el) /\ nth_error (s_T b) k = Some el.
Proof.
  intros ES Ht. unfold owner_tet. rewrite BvhProofs.py_get_nat. assert (H : (t < length (owners (s_T b)))%nat) by (rewrite owners_length, <- ES; exact Ht).
  destruct (nth_error (owners (s_T b)) t) as [k|] eqn:E; [|apply nth_error_None in E; lia]. unfold owners in E. cbv zeta in E. rewrite nth_error_map in E. destruct (nth_error (compute_surface _ _) t) as [[f [o v]]|] eqn:E2; [|discriminate].
  cbn in E. assert (o = k) by congruence. subst o. apply nth_error_In in E2. apply in_surface in E2 as (i & j & l & m & HT & _). rewrite nth_error_map in HT. destruct (nth_error (s_T b) k) as [el|] eqn:E3; [|discriminate]. exists k, el. auto.
Qed.
Lemma surface_triangle_total b t : (t < length (s_surface b))%nat -> exists ps, surface_triangle b (Z.of_nat t) = Some ps.
Proof. intros H. unfold surface_triangle. rewrite BvhProofs.py_get_nat. destruct (nth_error (s_surface b) t) as [[[i j] k]|] eqn:E; [eauto|]. apply nth_error_None in E. lia. Qed.
Lemma contact_of_pair_total P iA iB A aA B aB t s : soft_ready A aA -> soft_ready B aB -> (t < length (s_surface A))%nat -> (s < length (s_surface B))%nat ->
  exists l, contact_of_pair P iA iB A B (ca_grid aB) (Z.of_nat t, Z.of_nat s) = Some l.
Proof.
  intros (_ & SA & _ & VA & _) (_ & SB & _ & VB & GB) Ht Hs. unfold contact_of_pair. cbn [fst snd]. destruct (owner_total A t SA Ht) as (kA & elA & -> & EA). destruct (owner_total B s SB Hs) as (kB & elB & -> & EB).
  destruct (surface_triangle_total A t Ht) as ([[p0 p1] p2] & ->). cbn [fst snd]. cbv zeta. apply nth_error_In in EA, EB. destruct (VA _ EA) as [VA1 _]. destruct (VB _ EB) as [VB1 VB2]. apply volume_quad in VA1, VB1, VB2.
  unfold xform_triangle_to_model_space. destruct (quad_bary_total _ p0 VB1) as (w0 & ->). destruct (quad_bary_total _ p1 VB1) as (w1 & ->). destruct (quad_bary_total _ p2 VB1) as (w2 & ->).
  match goal with |- context [fw_point ?g ?a ?b ?c] => destruct (fw_point_total g a b c) as (x & ->); [intros q; apply gradient_total; exact GB|] end.
  assert (EI : exists i, grid_is_inside (ca_grid aB) x (1/2) = Some i). { unfold grid_is_inside. destruct (Rltb_spec (1/2) 0); [lra|]. repeat match goal with |- context [if ?c then _ else _] => destruct c end; eauto. }
  destruct EI as ([|] & ->); [|eauto]. destruct (value_total _ x GB) as (phi & ->). destruct (Rleb phi (cp_envelope P)); [|eauto]. destruct (gradient_total _ x GB) as (n & ->). destruct (Rltb_spec 0 (vnorm n)) as [Hn|]; [|eauto].
  unfold xform_contact_to_world. destruct (quad_bary_total _ x VB2) as (wB & ->). match goal with |- context [quad_bary _ ?q] => destruct (quad_bary_total _ q VA1) as (wA & ->) end.
  assert (HD0 : mdet (edge_rows (tet_corners (s_x0 B) elB)) <> 0) by (rewrite edge_rows_det; lra). assert (HD : mdet (edge_rows (tet_corners (s_x B) elB)) <> 0) by (rewrite edge_rows_det; lra).
  destruct (solve3_spec _ n HD0) as (s' & -> & Hs' & _). rewrite make_scontact_unit; [eauto|]. apply unit_of_pos, norm_nonzero, mvec_nonzero; [exact HD|].
  intros ->. assert (En : n = vzero); [|rewrite En, norm_zero in Hn; lra]. rewrite <- Hs'. clear. destruct (edge_rows (tet_corners (s_x0 B) elB)). unfold mvec, vzero; cbn. f_equal; ring.
Qed.
Lemma contact_of_pair_probe P iA iB A aA B aB t s ps kB elB p phi n : soft_ready A aA -> soft_ready B aB -> (t < length (s_surface A))%nat -> surface_triangle A (Z.of_nat t) = Some ps -> owner_tet B (Z.of_nat s) = Some (kB, elB) ->
  soft_probe P B elB (ca_grid aB) ps p phi n -> exists cp, contact_of_pair P iA iB A B (ca_grid aB) (Z.of_nat t, Z.of_nat s) = Some [cp] /\ sc_A cp = iB /\ sc_B cp = iA /\ sc_p cp = p /\ sc_g cp = phi.
Proof.
  intros (_ & SA & _ & VA & _) (_ & SB & _ & VB & GB) Ht EP EO. destruct ps as [[p0 p1] p2]. intros (q0 & q1 & q2 & x & M0 & M1 & M2 & EF & MP & EI & EV & HE & EG & HN).
  unfold contact_of_pair. cbn [fst snd]. destruct (owner_total A t SA Ht) as (kA & elA & -> & EA). rewrite EO, EP. cbn [fst snd]. cbv zeta. pose proof (owner_tet_nth _ _ _ _ EO) as EB. apply nth_error_In in EA, EB. destruct (VA _ EA) as [VA1 _]. destruct (VB _ EB) as [VB1 VB2].
  unfold xform_triangle_to_model_space. destruct (image_bary _ _ _ _ VB1 M0) as (w0 & -> & ->). destruct (image_bary _ _ _ _ VB1 M1) as (w1 & -> & ->). destruct (image_bary _ _ _ _ VB1 M2) as (w2 & -> & ->).
  rewrite EF, EI, EV, EG. destruct (Rleb_spec phi (cp_envelope P)) as [_|]; [|contradiction]. pose proof (norm_nonzero _ HN) as Hn. destruct (Rltb_spec 0 (vnorm n)) as [_|]; [|contradiction].
  unfold xform_contact_to_world. destruct (image_bary0 _ _ _ _ VB2 MP) as (wB & -> & ->). apply volume_quad in VA1, VB1, VB2. destruct (quad_bary_total _ p VA1) as (wA & ->).
  assert (HD0 : mdet (edge_rows (tet_corners (s_x0 B) elB)) <> 0) by (rewrite edge_rows_det; lra). assert (HD : mdet (edge_rows (tet_corners (s_x B) elB)) <> 0) by (rewrite edge_rows_det; lra).
  destruct (solve3_spec _ n HD0) as (s' & -> & Hs' & _). rewrite make_scontact_unit. { eexists. split; [reflexivity|]. repeat split. } apply unit_of_pos, norm_nonzero, mvec_nonzero; [exact HD|].
  intros ->. apply HN. rewrite <- Hs'. clear. destruct (edge_rows (tet_corners (s_x0 B) elB)). unfold mvec, vzero; cbn. f_equal; ring.
Qed.
Lemma compute_contacts_hit P bs iA iB rs cs A B tr l cp : soft_compute_contacts P bs iA iB rs = Some cs -> nth_error bs iA = Some A -> nth_error bs iB = Some B -> In tr rs ->
  contact_of_pair P iA iB (fst A) (fst B) (ca_grid (snd B)) tr = Some l -> In cp l -> In cp cs.
Proof.
  unfold soft_compute_contacts. intros H HA HB Htr Hl Hcp. rewrite HA, HB in H. destruct (map_opt _ rs) as [ls|] eqn:E; [|discriminate]. apply some_eq in H. subst cs.
  destruct (map_opt_hit _ _ _ _ E Htr) as (l' & El & Hin). assert (l' = l) by congruence. subst l'. apply in_concat. eauto.
Qed.
(** a pair of triangles reported between bodies i and j is looked at from both sides *)
Lemma determination_hit P bs ov cs i j rs t s : soft_contact_determination P bs ov = Some cs -> In ((i, j), rs) ov -> In (t, s) rs -> forall A B l cp,
  (nth_error bs i = Some A -> nth_error bs j = Some B -> contact_of_pair P i j (fst A) (fst B) (ca_grid (snd B)) (t, s) = Some l -> In cp l -> In cp cs) /\
  (nth_error bs j = Some A -> nth_error bs i = Some B -> contact_of_pair P j i (fst A) (fst B) (ca_grid (snd B)) (s, t) = Some l -> In cp l -> In cp cs).
Proof.
  unfold soft_contact_determination. intros H Hov Hts A B l cp. destruct (map_opt _ ov) as [ls|] eqn:E; [|discriminate]. apply some_eq in H. subst cs.
  destruct (map_opt_hit _ _ _ _ E Hov) as (l' & El & Hin). cbn [fst snd] in El. destruct (soft_compute_contacts P bs i j rs) as [c1|] eqn:E1; [|discriminate].
  destruct (soft_compute_contacts P bs j i _) as [c2|] eqn:E2; [|discriminate]. apply some_eq in El. subst l'. split; intros HA HB Hl Hcp; apply in_concat; exists (c1 ++ c2); (split; [exact Hin|]); apply in_or_app.
  - left. exact (compute_contacts_hit _ _ _ _ _ _ _ _ _ _ _ E1 HA HB Hts Hl Hcp).
  - right. refine (compute_contacts_hit _ _ _ _ _ _ _ _ (s, t) _ _ E2 HA HB _ Hl Hcp). apply in_map_iff. exists (t, s). auto.
Qed.
Lemma compute_contacts_total P bs iA iB rs A B : nth_error bs iA = Some A -> nth_error bs iB = Some B -> soft_ready (fst A) (snd A) -> soft_ready (fst B) (snd B) ->
  (forall t s, In (t, s) rs -> (0 <= t < Z.of_nat (length (s_surface (fst A))))%Z /\ (0 <= s < Z.of_nat (length (s_surface (fst B))))%Z) ->
  exists cs, soft_compute_contacts P bs iA iB rs = Some cs.
Proof.
  intros EA EB HA HB Hr. unfold soft_compute_contacts. rewrite EA, EB.
  destruct (map_opt_total (contact_of_pair P iA iB (fst A) (fst B) (ca_grid (snd B))) rs) as [ls E]; [|rewrite E; eauto].
  intros [t s] Hts. destruct (Hr t s Hts) as [Ht Hs]. rewrite <- (Z2Nat.id t), <- (Z2Nat.id s) by lia. eapply contact_of_pair_total; eauto; lia.
Qed.
Lemma determination_total P bs ov : (forall i j rs, In ((i, j), rs) ov -> exists A B, nth_error bs i = Some A /\ nth_error bs j = Some B /\ soft_ready (fst A) (snd A) /\ soft_ready (fst B) (snd B) /\
    forall t s, In (t, s) rs -> (0 <= t < Z.of_nat (length (s_surface (fst A))))%Z /\ (0 <= s < Z.of_nat (length (s_surface (fst B))))%Z) ->
  exists cs, soft_contact_determination P bs ov = Some cs.
Proof.
  intros H. unfold soft_contact_determination. match goal with |- context [map_opt ?h ov] => destruct (map_opt_total h ov) as [ls E] end; [|rewrite E; eauto].
  intros [[i j] rs] Hin. cbn [fst snd]. destruct (H i j rs Hin) as (A & B & EA & EB & HA & HB & Hr). destruct (compute_contacts_total P bs i j rs A B EA EB HA HB Hr) as (c1 & ->).
  destruct (compute_contacts_total P bs j i (map (fun t => (snd t, fst t)) rs) B A EB EA HB HA) as (c2 & ->); [|eauto].
  intros t s Hts. apply in_map_iff in Hts as ([t' s'] & E & Hts). cbn in E. injection E as <- <-. destruct (Hr _ _ Hts). auto.
Qed.
Lemma gather_exists V el : (forall z, In z el -> (0 <= z < Z.of_nat (length V))%Z) -> exists vs, BvhModel.gather V el = Some vs.
Proof.
  induction el as [|z el IH]; intros H; cbn [BvhModel.gather]; [eauto|]. assert (Hz : (0 <= z < Z.of_nat (length V))%Z) by (apply H; left; reflexivity). rewrite <- (Z2Nat.id z) by lia. rewrite BvhProofs.py_get_nat.
  destruct (nth_error V (Z.to_nat z)) as [p|] eqn:E; [|apply nth_error_None in E; lia]. destruct IH as (vs & ->); [intros y Hy; apply H; right; exact Hy|]. eauto.
Qed.
Lemma soft_valid b a : soft_ready b a -> BvhSpec.valid_mesh (soft_vertices b) (soft_elements b).
Proof.
  intros (_ & ES & HV & _). intros el Hel. apply gather_exists. unfold soft_elements in Hel. apply in_map_iff in Hel as ([[i j] k] & <- & Hin). rewrite ES in Hin.
  pose proof (surface_valid _ _ HV) as HS. rewrite Forall_forall in HS. specialize (HS _ Hin). cbn in HS. unfold soft_vertices. rewrite map_length, seq_length. intros z [<-|[<-|[<-|[]]]]; lia.
Qed.
Definition fitted (P : cparams) (ba : sbody * cattr) : Prop := soft_ready (fst ba) (snd ba) /\
  exists tr N, ca_bvh (snd ba) = Some tr /\ (1 <= N)%Z /\ bvh_reach (soft_elements (fst ba)) (cp_K P) N tr (soft_vertices (fst ba)) (cp_envelope P).
Lemma update_fits P : supported_K (cp_K P) -> forall bs attrs, Forall2 (fun b a => soft_ready b a /\ bvh_ready P b a) bs attrs ->
  exists bs', soft_update_bvh P (combine bs attrs) = Some bs' /\ Forall (fitted P) bs' /\ map fst bs' = bs /\ map (fun ba => ca_grid (snd ba)) bs' = map ca_grid attrs.
Proof.
  intros HK bs attrs H. induction H as [|b a bs attrs [HR (tr & N & X & env & E1 & HN & HB)] H (bs' & E & HF & H1 & H2)]; [exists []; split; [reflexivity|split; [constructor|auto]]|].
  cbn [combine soft_update_bvh map_opt]. rewrite E1. destruct (C21_refit_succeeds _ _ _ _ _ _ (soft_vertices b) (cp_envelope P) HK HN HB (soft_valid b a HR)) as (tr' & Er & HR'). rewrite Er. unfold soft_update_bvh in E. rewrite E.
  eexists. split; [reflexivity|]. split; [|cbn; rewrite H1, H2; auto]. constructor; [|exact HF]. split; [exact HR|]. exists tr', N. auto.
Qed.
Lemma enum_nth {A} (l : list A) : forall s i a, nth_error (combine (seq s (length l)) l) i = Some a <-> nth_error l i = Some (snd a) /\ fst a = (s + i)%nat.
Proof.
  induction l as [|x l IH]; intros s i [k a]; cbn [length seq combine fst snd]; [destruct i; split; [discriminate|intros [H _]; discriminate|discriminate|intros [H _]; discriminate]|].
  destruct i as [|i]; cbn [nth_error]; [rewrite Nat.add_0_r; split; [intros H; injection H as <- <-; auto|intros [H ->]; congruence]|].
  rewrite IH. cbn [fst snd]. replace (S s + i)%nat with (s + S i)%nat by lia. tauto.
Qed.
Lemma narrow_total P bs : supported_K (cp_K P) -> Forall (fitted P) bs -> exists ov, soft_narrow_phase bs = Some ov /\
  (forall i j rs, In ((i, j), rs) ov -> exists A B, (i < j)%nat /\ nth_error bs i = Some A /\ nth_error bs j = Some B /\
    forall t s, In (t, s) rs -> (0 <= t < Z.of_nat (length (s_surface (fst A))))%Z /\ (0 <= s < Z.of_nat (length (s_surface (fst B))))%Z) /\
  (forall i j A B t s ela elb va vb pa pb, (i < j)%nat -> nth_error bs i = Some A -> nth_error bs j = Some B ->
     nth_error (soft_elements (fst A)) t = Some ela -> nth_error (soft_elements (fst B)) s = Some elb -> BvhModel.gather (soft_vertices (fst A)) ela = Some va -> BvhModel.gather (soft_vertices (fst B)) elb = Some vb ->
     in_hull pa va -> in_hull pb vb -> vnorm (vsub pa pb) <= cp_envelope P -> exists rs, In ((i, j), rs) ov /\ In (Z.of_nat t, Z.of_nat s) rs).
Proof.
  intros HK HF. rewrite Forall_forall in HF. unfold soft_narrow_phase. set (L := combine (seq 0 (length bs)) bs).
  match goal with |- context [map_opt ?h (combinations2 L)] => set (f := h) end.
  assert (HL : forall k l, In (k, l) (combinations2 L) -> exists i j, (i < j)%nat /\ fst k = i /\ fst l = j /\ nth_error bs i = Some (snd k) /\ nth_error bs j = Some (snd l)).
  { intros k l Hkl. apply combinations2_pos in Hkl as (i & j & Hij & Hi & Hj). apply enum_nth in Hi as [Hi Hi'], Hj as [Hj Hj']. exists i, j. cbn in Hi', Hj'. auto. }
  assert (Hf : forall k l, In (k, l) (combinations2 L) -> exists r, f (k, l) = Some ((fst k, fst l), r) /\
     (forall t s, In (t, s) r -> (0 <= t < Z.of_nat (length (s_surface (fst (snd k)))))%Z /\ (0 <= s < Z.of_nat (length (s_surface (fst (snd l)))))%Z) /\
     forall t s ela elb va vb pa pb, nth_error (soft_elements (fst (snd k))) t = Some ela -> nth_error (soft_elements (fst (snd l))) s = Some elb -> BvhModel.gather (soft_vertices (fst (snd k))) ela = Some va -> BvhModel.gather (soft_vertices (fst (snd l))) elb = Some vb ->
       in_hull pa va -> in_hull pb vb -> vnorm (vsub pa pb) <= cp_envelope P -> In (Z.of_nat t, Z.of_nat s) r).
  { intros k l Hkl. destruct (HL k l Hkl) as (i & j & _ & _ & _ & Hi & Hj). destruct (HF _ (nth_error_In _ _ Hi)) as [_ (tA & NA & EA & HNA & RA)]. destruct (HF _ (nth_error_In _ _ Hj)) as [_ (tB & NB & EB & HNB & RB)].
    unfold f. cbn [fst snd]. rewrite EA, EB. destruct (C22_traversal_exact _ _ _ _ _ _ _ _ _ _ _ HK HNA HNB RA RB) as (r & Er & _ & Hex). rewrite Er. exists r. split; [reflexivity|]. split.
    - intros t s Hts. apply Hex in Hts as (Ht & Hs & _). unfold soft_elements in Ht, Hs. rewrite map_length in Ht, Hs. auto.
    - intros t s ela elb va vb pa pb H1 H2 H3 H4 H5 H6 H7. destruct (C22_close_reported _ _ _ _ _ _ _ _ _ _ t s ela elb va vb pa pb HK HNA HNB RA RB H1 H2 H3 H4 H5 H6 H7) as (r' & Er' & Hin). congruence. }
  destruct (map_opt_total f (combinations2 L)) as [rs E]. { intros [k l] Hkl. destruct (Hf k l Hkl) as (r & -> & _). eauto. }
  rewrite E. eexists. split; [reflexivity|]. split.
  - intros i j r Hin. apply filter_In in Hin as [Hin _]. destruct (map_opt_in' _ _ _ _ E Hin) as ([k l] & Hkl & Efk). destruct (Hf k l Hkl) as (r' & Ef & Hv & _). rewrite Ef in Efk. apply some_eq in Efk. injection Efk as <- <- <-.
    destruct (HL k l Hkl) as (i & j & Hij & Ei & Ej & Hi & Hj). exists (snd k), (snd l). rewrite Ei, Ej. auto.
  - intros i j A B t s ela elb va vb pa pb Hij HA HB H1 H2 H3 H4 H5 H6 H7.
    assert (Hc : In ((i, A), (j, B)) (combinations2 L)) by (apply (combinations2_has L i j); [exact Hij|apply enum_nth; auto|apply enum_nth; auto]).
    destruct (Hf _ _ Hc) as (r & Ef & _ & Hr). cbn [fst snd] in *. specialize (Hr t s ela elb va vb pa pb H1 H2 H3 H4 H5 H6 H7). exists r. split; [|exact Hr]. apply filter_In. split; [|destruct r; [destruct Hr|reflexivity]].
    destruct (map_opt_hit _ _ _ _ E Hc) as (y & Ey & Hy). congruence.
Qed.

Lemma Forall2_len {A B} (R : A -> B -> Prop) l m : Forall2 R l m -> length m = length l.
Proof. induction 1; cbn; congruence. Qed.
(** Detection with bounding volume hierarchies never raises on bodies it can work on. *)
Theorem C134_total P attrs enum hash cs hg e : cp_hashing P = false -> supported_K (cp_K P) -> Forall2 (fun b a => soft_ready b a /\ bvh_ready P b a) (sg_bodies e) attrs ->
  exists contacts, soft_cd P attrs enum hash cs hg e = Some contacts.
Proof.
  intros HH HK HB. unfold soft_cd. rewrite (Forall2_len _ _ _ HB), Nat.eqb_refl, HH.
  assert (HR : forallb ready (sg_bodies e) = true). { apply forallb_forall. clear - HB. induction HB as [|b a l m [(H & _) _] HB IH]; intros x Hx; [destruct Hx|destruct Hx as [<-|Hx]; auto]. }
  rewrite HR. cbn [negb andb]. destruct (update_fits P HK _ _ HB) as (bs' & -> & HF & _). destruct (narrow_total P bs' HK HF) as (ov & -> & Hov & _).
  destruct (determination_total P bs' ov) as (l & ->); [|eauto]. intros i j rs Hin. destruct (Hov i j rs Hin) as (A & B & _ & HA & HB' & Hr). rewrite Forall_forall in HF. exists A, B. split; [exact HA|]. split; [exact HB'|].
  split; [apply (HF _ (nth_error_In _ _ HA))|]. split; [apply (HF _ (nth_error_In _ _ HB'))|exact Hr].
Qed.
Print Assumptions C134_total.
Lemma surface_gather b a t i j k : soft_ready b a -> nth_error (s_surface b) t = Some (i, j, k) -> exists el, nth_error (soft_elements b) t = Some el /\ BvhModel.gather (soft_vertices b) el = Some [s_x b i; s_x b j; s_x b k].
Proof.
  intros HR Ht. exists [Z.of_nat i; Z.of_nat j; Z.of_nat k]. unfold soft_elements. rewrite nth_error_map, Ht. split; [reflexivity|].
  destruct HR as (_ & ES & HV & _). pose proof (surface_valid _ _ HV) as HS. rewrite ES in Ht. rewrite Forall_forall in HS. specialize (HS _ (nth_error_In _ _ Ht)). cbn in HS. destruct HS as (Hi & Hj & Hk).
  unfold soft_vertices. cbn [BvhModel.gather]. rewrite !BvhProofs.py_get_nat, !nth_error_map. assert (N : forall n, (n < s_n b)%nat -> nth_error (seq 0 (s_n b)) n = Some n) by (intros n Hn; rewrite (nth_error_nth' _ 0%nat) by (rewrite seq_length; exact Hn); rewrite seq_nth by exact Hn; reflexivity).
  rewrite !N by assumption. reflexivity.
Qed.
(** Of two different bodies A and B, let a surface triangle of A and one of B have points of the world at most the envelope apart.  If A's
    triangle probes B's distance field (through the tetrahedron that B's triangle belongs to) at p with distance phi, then a contact
    between B and A at p is reported. *)
Theorem C134_bvh_detected P attrs enum hash cs hg e i j A B aB ta tb ia ja ka ib jb kb pa pb o el p phi n : cp_hashing P = false -> supported_K (cp_K P) ->
  Forall2 (fun b a => soft_ready b a /\ bvh_ready P b a) (sg_bodies e) attrs ->
  i <> j -> nth_error (sg_bodies e) i = Some A -> nth_error (sg_bodies e) j = Some B -> nth_error attrs j = Some aB ->
  nth_error (s_surface A) ta = Some (ia, ja, ka) -> nth_error (s_surface B) tb = Some (ib, jb, kb) ->
  in_triangle pa (s_x A ia, s_x A ja, s_x A ka) -> in_triangle pb (s_x B ib, s_x B jb, s_x B kb) -> vnorm (vsub pa pb) <= cp_envelope P ->
  nth_error (owners (s_T B)) tb = Some o -> nth_error (s_T B) o = Some el -> soft_probe P B el (ca_grid aB) (s_x A ia, s_x A ja, s_x A ka) p phi n ->
  exists contacts cp, soft_cd P attrs enum hash cs hg e = Some contacts /\ In cp contacts /\ sc_A cp = j /\ sc_B cp = i /\ sc_p cp = p.
Proof.
  intros HH HK HB Hij HA HB' HaB Hta Htb Hpa Hpb Hd Ho Hel Hpr. destruct (C134_total P attrs enum hash cs hg e HH HK HB) as (contacts & E). exists contacts. assert (E' := E). unfold soft_cd in E. destruct (negb _); [discriminate|]. rewrite HH in E. cbv zeta in E.
  destruct (update_fits P HK _ _ HB) as (bs' & Eu & HF & Hf1 & Hf2). rewrite Eu in E. destruct (narrow_total P bs' HK HF) as (ov & En & _ & Hhit). rewrite En in E. destruct (soft_contact_determination P bs' ov) as [c|] eqn:Ec; [|discriminate]. apply some_eq in E. subst contacts.
  assert (NA : exists A', nth_error bs' i = Some (A, A')). { rewrite <- Hf1, nth_error_map in HA. destruct (nth_error bs' i) as [[b a]|]; [|discriminate]. cbn in HA. exists a. congruence. }
  assert (NB : exists B', nth_error bs' j = Some (B, B') /\ ca_grid B' = ca_grid aB).
  { assert (HG : nth_error (map ca_grid attrs) j = Some (ca_grid aB)) by (rewrite nth_error_map, HaB; reflexivity). rewrite <- Hf2, nth_error_map in HG. rewrite <- Hf1, nth_error_map in HB'. destruct (nth_error bs' j) as [[b a]|]; [|discriminate]. cbn in HB', HG. exists a. split; congruence. }
  destruct NA as (aA' & NA), NB as (aB' & NB & EG). rewrite Forall_forall in HF. destruct (HF _ (nth_error_In _ _ NA)) as [RA _]. destruct (HF _ (nth_error_In _ _ NB)) as [RB _]. cbn [fst snd] in RA, RB.
  destruct (surface_gather A aA' ta ia ja ka RA Hta) as (ela & Ea & Ga). destruct (surface_gather B aB' tb ib jb kb RB Htb) as (elb & Eb & Gb).
  assert (Lta : (ta < length (s_surface A))%nat) by (apply nth_error_Some; congruence).
  assert (EO : owner_tet B (Z.of_nat tb) = Some (o, el)) by (unfold owner_tet; rewrite BvhProofs.py_get_nat, Ho, Hel; reflexivity).
  assert (EP : surface_triangle A (Z.of_nat ta) = Some (s_x A ia, s_x A ja, s_x A ka)) by (unfold surface_triangle; rewrite BvhProofs.py_get_nat, Hta; reflexivity).
  rewrite <- EG in Hpr. destruct (contact_of_pair_probe P i j A aA' B aB' ta tb _ o el p phi n RA RB Lta EP EO Hpr) as (cp0 & Ecp & C1 & C2 & C3 & _).
  assert (Hin : In cp0 c).
  { destruct (Nat.lt_ge_cases i j) as [L|L].
    - destruct (Hhit i j _ _ ta tb ela elb _ _ pa pb L NA NB Ea Eb Ga Gb (in_triangle_hull _ _ _ _ Hpa) (in_triangle_hull _ _ _ _ Hpb) Hd) as (rs & Hov & Hrs).
      destruct (determination_hit P bs' ov c i j rs _ _ Ec Hov Hrs (A, aA') (B, aB') [cp0] cp0) as [D _]. apply D; auto. left. reflexivity.
    - assert (L' : (j < i)%nat) by lia. assert (Hd' : vnorm (vsub pb pa) <= cp_envelope P) by (rewrite vnorm_sub_sym; exact Hd).
      destruct (Hhit j i _ _ tb ta elb ela _ _ pb pa L' NB NA Eb Ea Gb Ga (in_triangle_hull _ _ _ _ Hpb) (in_triangle_hull _ _ _ _ Hpa) Hd') as (rs & Hov & Hrs).
      destruct (determination_hit P bs' ov c j i rs _ _ Ec Hov Hrs (A, aA') (B, aB') [cp0] cp0) as [_ D]. apply D; auto. left. reflexivity. }
  destruct (C135_reduction c) as (_ & Q & _). destruct (Q cp0 Hin) as (cp & Hcp & Q1 & Q2 & Q3). exists cp. split; [exact E'|]. split; [exact Hcp|]. split; [congruence|]. split; congruence.
Qed.
Print Assumptions C134_bvh_detected.
