(** Soft-body collision detection: what a reported contact says (C132), momentum with the real collision detection (C112). *)
From Verif Require Import Base ListProofs VecModel VecProofs BvhModel GridModel SurfModel VolModel BaryModel RigidTypes StepModel CollModel HashModel ConProofs MechModel FemModel FemSpec SoftModel SoftSpec SoftProofs SoftProofs2 SoftReach
  SoftFrame SoftCollModel SoftCollProofs Prop_Bary Prop_Volume Prop_Contacts Prop_Soft Prop_Soft3.
Open Scope R_scope.

(** ** reading the pipeline backwards *)
Lemma update_keeps P bs : forall bs', soft_update_bvh P bs = Some bs' -> forall k b a', nth_error bs' k = Some (b, a') -> exists a, nth_error bs k = Some (b, a) /\ ca_grid a' = ca_grid a.
Proof.
  induction bs as [|[c g] bs IH]; intros bs' H k b a' Hk; cbn [soft_update_bvh map_opt] in H; [apply some_eq in H; subst; destruct k; discriminate|].
  destruct (ca_bvh g) as [t|]; [|discriminate]. destruct (refit_bvh _ _ t _ _) as [t'|]; [|discriminate]. unfold soft_update_bvh in IH. destruct (map_opt _ bs) as [r|] eqn:E; [|discriminate]. apply some_eq in H. subst bs'.
  destruct k as [|k]; cbn [nth_error] in *; [|exact (IH r eq_refl k b a' Hk)]. exists g. assert (c = b) by congruence. subst c. split; [reflexivity|]. assert (a' = mkCA (ca_grid g) (Some t')) by congruence. subst a'. reflexivity.
Qed.
Lemma combine_nth {A B} (l : list A) (m : list B) : forall k a b, nth_error (combine l m) k = Some (a, b) -> nth_error l k = Some a /\ nth_error m k = Some b.
Proof. revert m. induction l as [|x l IH]; intros [|y m] k a b H; try (destruct k; discriminate). destruct k as [|k]; cbn in *; [split; congruence|]. apply IH. exact H. Qed.
(** a reported contact comes from one pair of triangles *)
Lemma soft_cd_inv P attrs enum hash cs hg e l cp : soft_cd P attrs enum hash cs hg e = Some l -> In cp l ->
  exists iA iB A B aB tr r, nth_error (sg_bodies e) iA = Some A /\ nth_error (sg_bodies e) iB = Some B /\ nth_error attrs iB = Some aB /\
    contact_of_pair P iA iB A B (ca_grid aB) tr = Some r /\ In cp r.
Proof.
  unfold soft_cd. destruct (negb _); [discriminate|]. cbv zeta. set (bs := combine (sg_bodies e) attrs).
  assert (G : forall bs' ov c, (forall k b a', nth_error bs' k = Some (b, a') -> exists a, nth_error bs k = Some (b, a) /\ ca_grid a' = ca_grid a) -> soft_contact_determination P bs' ov = Some c -> In cp c ->
     exists iA iB A B aB tr r, nth_error (sg_bodies e) iA = Some A /\ nth_error (sg_bodies e) iB = Some B /\ nth_error attrs iB = Some aB /\ contact_of_pair P iA iB A B (ca_grid aB) tr = Some r /\ In cp r).
  { intros bs' ov c HB HC Hcp. destruct (determination_inv _ _ _ _ _ HC Hcp) as (k & l0 & rs & _ & Hrs & HE).
    assert (HE' : exists iA iB rs0, soft_compute_contacts P bs' iA iB rs0 = Some rs) by (destruct HE; eauto). clear HE. destruct HE' as (iA & iB & rs0 & HE).
    destruct (compute_contacts_inv _ _ _ _ _ _ _ HE Hrs) as ([A aA] & [B aB] & tr & r & HA & HB' & _ & HR & Hr). cbn [fst snd] in HR.
    destruct (HB _ _ _ HA) as (aA' & HA' & _). destruct (HB _ _ _ HB') as (aB' & HB'' & Eg). apply combine_nth in HA' as [HA' _]. apply combine_nth in HB'' as [HB1 HB2]. rewrite Eg in HR.
    exists iA, iB, A, B, aB', tr, r. auto. }
  assert (RD : forall c, In cp (soft_contact_reduction c) -> In cp c).
  { intros c H. destruct (reduction_step c [] (NoDup_nil _)) as (_ & H2 & _). destruct (H2 cp H) as [[]|H']; exact H'. }
  destruct (cp_hashing P).
  - destruct (hash_narrow_phase _ _ _ _ _) as [r|]; [|discriminate]. destruct (soft_contact_determination _ _ _) as [c|] eqn:EC; [|discriminate]. intros H. apply some_eq in H. subst l. intros Hin.
    apply (G bs (enum (snd r)) c); [intros k b a' Hk; eauto|exact EC|apply RD; exact Hin].
  - destruct (soft_update_bvh P bs) as [bs'|] eqn:EU; [|discriminate]. destruct (soft_narrow_phase bs') as [ov|]; [|discriminate]. destruct (soft_contact_determination _ _ _) as [c|] eqn:EC; [|discriminate].
    intros H. apply some_eq in H. subst l. intros Hin. apply (G bs' ov c); [exact (update_keeps _ _ _ EU)|exact EC|apply RD; exact Hin].
Qed.

(** ** C132 *)
(** What a contact point cp between the soft bodies bs (with distance fields [grids]) says: it lies at p, which is the point of
    each of the two tetrahedra with the given barycentric coordinates (in world coordinates), and it is a point of a surface
    triangle of the second body; the same point of the first body's tetrahedron in the undeformed shape is where the distance
    field of the first body has the value g, at most the envelope; the normal has length 1. *)
Definition contact_sound (envelope : R) (grids : list grid) (bs : list sbody) (cp : scontact) : Prop :=
  wsum (sc_wA cp) = 1 /\ wsum (sc_wB cp) = 1 /\
  contact_point bs s_x (sc_A cp) (sc_tetA cp) (sc_wA cp) = Some (sc_p cp) /\
  contact_point bs s_x (sc_B cp) (sc_tetB cp) (sc_wB cp) = Some (sc_p cp) /\
  (exists B i j k, nth_error bs (sc_B cp) = Some B /\ In (i, j, k) (s_surface B) /\ in_triangle (sc_p cp) (s_x B i, s_x B j, s_x B k)) /\
  (exists x0 g, contact_point bs s_x0 (sc_A cp) (sc_tetA cp) (sc_wA cp) = Some x0 /\ nth_error grids (sc_A cp) = Some g /\
     get_value g x0 = Some (sc_g cp) /\ sc_g cp <= envelope) /\
  vnorm (sc_n cp) = 1.
Lemma py_get_in {A} (l : list A) t x : py_get l t = Some x -> In x l.
Proof. unfold py_get. destruct (py_idx l t) as [k|]; [|discriminate]. apply nth_error_In. Qed.
Lemma surface_triangle_in b t ps : surface_triangle b t = Some ps -> exists i j k, In (i, j, k) (s_surface b) /\ ps = (s_x b i, s_x b j, s_x b k).
Proof.
  unfold surface_triangle. destruct (py_get (s_surface b) t) as [[[i j] k]|] eqn:E; [|discriminate]. intros H. apply some_eq in H. exists i, j, k. split; [eapply py_get_in; exact E|auto].
Qed.
Lemma owner_tet_nth b t k el : owner_tet b t = Some (k, el) -> nth_error (s_T b) k = Some el.
Proof.
  unfold owner_tet. destruct (py_get (owners (s_T b)) t) as [k'|]; [|discriminate]. destruct (nth_error (s_T b) k') as [el'|] eqn:E; [|discriminate]. intros H. apply some_eq in H. congruence.
Qed.
Theorem C132_contacts_sound P attrs enum hash cs hg e contacts cp : soft_cd P attrs enum hash cs hg e = Some contacts -> In cp contacts ->
  contact_sound (cp_envelope P) (map ca_grid attrs) (sg_bodies e) cp.
Proof.
  intros H Hin. destruct (soft_cd_inv _ _ _ _ _ _ _ _ _ H Hin) as (iA & iB & A & B & aB & tr & r & HA & HB & HG & HR & Hr).
  destruct (contact_of_pair_spec _ _ _ _ _ _ _ _ _ HR Hr) as (x & n & kA & kB & elA & elB & ps & F). destruct F.
  unfold contact_sound, contact_point. rewrite cf_A, cf_B, cf_tA, cf_tB, HA, HB, (owner_tet_nth _ _ _ _ cf_oA), (owner_tet_nth _ _ _ _ cf_oB), cf_pA, cf_pB, cf_x.
  split; [exact cf_wA|]. split; [exact cf_wB|]. split; [reflexivity|]. split; [reflexivity|]. split.
  - destruct (surface_triangle_in _ _ _ cf_ps) as (i & j & k & Hs & ->). exists A, i, j, k. auto.
  - split; [|exact cf_n1]. exists x, (ca_grid aB). split; [reflexivity|]. split; [rewrite nth_error_map, HG; reflexivity|]. auto.
Qed.
Print Assumptions C132_contacts_sound.

(** the surface kept by a body is that of its mesh *)
Definition surface_kept (b : sbody) : Prop := ready b = true -> s_surface b = surface_tris (s_T b).
Lemma motion_surface b b' : motion b b' -> surface_kept b -> surface_kept b'.
Proof. intros (x & u & ->) H. exact H. Qed.
Lemma upd_surface e n f : (forall b, surface_kept b -> surface_kept (f b)) -> (forall b, In b (sg_bodies e) -> surface_kept b) -> forall b, In b (sg_bodies (upd_sbody e n f)) -> surface_kept b.
Proof.
  intros Hf H b Hb. unfold upd_sbody in Hb. cbn [sg_with_bodies sg_bodies] in Hb. apply in_map_iff in Hb as (c & <- & Hc). destruct (name_eqb (s_name c) n); [apply Hf|]; apply H; exact Hc.
Qed.
Theorem C111_surface_kept eigh axis e : soft_reach eigh axis e -> forall b, In b (sg_bodies e) -> ready b = true -> s_surface b = surface_tris (s_T b).
Proof.
  assert (G : soft_reach eigh axis e -> forall b, In b (sg_bodies e) -> surface_kept b); [|intros HR b Hb; exact (G HR b Hb)].
  intros HR. induction HR as [|e c e' HR IH HC|e Q HR IH|inv e W HR IH HN HI|cd sv dt e e' HR IH HC].
  - intros b [].
  - assert (X : outcome_engine (srun eigh axis c e) = e') by (destruct HC as [-> | ->]; reflexivity). subst e'. clear HC. destruct c; cbn [srun].
    + unfold create_soft_body. destruct (find_sbody e n); [exact IH|]. cbv zeta.
      assert (SN : forall c b, In b (sg_bodies e ++ [c]) -> surface_kept c -> surface_kept b) by (intros c b Hb Hc; apply in_app_or in Hb as [Hb|[<-|[]]]; auto).
      destruct (axis V) as [ax|]; [|intros b Hb; apply (SN _ _ Hb); discriminate]. destruct (axis_sort V T ax) as [[V' T']|]; [|intros b Hb; apply (SN _ _ Hb); discriminate].
      destruct (map_all elem_of_row T') as [Te|]; [|intros b Hb; apply (SN _ _ Hb); discriminate].
      destruct (compute_inverse_D0 _ Te) as [I0|]; intros b Hb; apply (SN _ _ Hb); [intros _; reflexivity|discriminate].
    + unfold create_dirichlet_conditions. destruct (find_sbody e n) as [b0|]; [|exact IH]. destruct (s_stage b0); try exact IH; apply upd_surface; auto.
    + unfold create_traction_conditions. destruct (find_sbody e n) as [b0|]; [|exact IH]. destruct (ready b0); [|exact IH]. apply upd_surface; auto.
    + unfold soft_set_velocity. destruct (find_sbody e n) as [b0|]; [|exact IH]. destruct (ready b0); [|exact IH]. apply upd_surface; auto.
    + unfold set_spatial_coordinates. destruct (find_sbody e n) as [b0|]; [|exact IH]. destruct (ready b0 && _); [|exact IH]. apply upd_surface; auto.
    + unfold soft_set_type. destruct (find_sbody e n) as [b0|]; [|exact IH]. destruct fixed; [|exact IH]. apply upd_surface; auto.
    + unfold soft_create_interaction. destruct (find_material _ A); [|exact IH]. destruct (find_material _ B); [|exact IH]. destruct (soft_get_interaction _ _ _); [exact IH|]. destruct (Rltb mu 0); exact IH.
    + unfold create_material. destruct (find_material (sg_materials e) m); exact IH.
    + unfold soft_set_material. destruct (find_sbody e n) as [b0|]; [|exact IH]. destruct (find_material (sg_materials e) m) as [mt|]; [|exact IH]. destruct (s_stage b0); apply upd_surface; auto.
    + unfold set_elasticity. destruct (find_material (sg_materials e) m); [|exact IH]. destruct (Rleb E 0); [exact IH|]. destruct (_ || _)%bool; exact IH.
    + unfold set_viscosity. destruct (find_material (sg_materials e) m); [|exact IH]. destruct (Rltb c 0); exact IH.
    + unfold set_mass_density. destruct (find_material (sg_materials e) m); [|exact IH]. destruct (Rltb rho 0); exact IH.
    + unfold set_constitutive_model. destruct (find_material (sg_materials e) m); exact IH.
    + unfold soft_set_gravity. destruct (find_sbody e n) as [b0|]; [|exact IH]. apply upd_surface; auto.
  - exact IH.
  - exact IH.
  - assert (X : outcome_engine (soft_step cd sv dt e) = e') by (destruct HC as [-> | ->]; reflexivity). pose proof (step_evolved cd sv dt e) as HE. rewrite X in HE. pose proof (ev_bodies _ _ HE) as FB. clear X HE HC HR.
    induction FB as [|a b' l l' M FB IHF]; intros b Hb; [destruct Hb|]. destruct Hb as [<-|Hb]; [apply (motion_surface _ _ M), IH; left; reflexivity|]. apply IHF; [intros c Hc; apply IH; right; exact Hc|exact Hb].
Qed.
Print Assumptions C111_surface_kept.

(** the second body's tetrahedron is the one its triangle belongs to, and the point is in it *)
Lemma surface_face T t i j k o a b c d : py_get (surface_tris T) t = Some (i, j, k) -> py_get (owners T) t = Some o -> nth_error T o = Some (a, b, c, d) ->
  (i, j, k) = (b, c, d) \/ (i, j, k) = (a, d, c) \/ (i, j, k) = (b, d, a) \/ (i, j, k) = (b, a, c).
Proof.
  unfold surface_tris, owners. cbv zeta. set (S := compute_surface _ _). intros H1 H2 Ho. unfold py_get in H1, H2.
  assert (EI : forall B (f g : tri * (nat * nat) -> B) , True) by auto. clear EI.
  assert (L : forall X Y (f : tri * (nat * nat) -> X) (g : tri * (nat * nat) -> Y), py_idx (map f S) t = py_idx (map g S) t) by (intros; unfold py_idx; rewrite !map_length; reflexivity).
  rewrite (L _ _ _ (fun q : tri * (nat * nat) => fst (snd q))) in H1. destruct (py_idx _ t) as [m|]; [|discriminate]. rewrite nth_error_map in H1, H2. destruct (nth_error S m) as [[[[z1 z2] z3] [o' v]]|] eqn:ES; [|discriminate].
  cbn [option_map fst snd] in H1, H2. assert (o' = o) by congruence. subst o'. apply nth_error_In in ES. apply in_surface in ES as (i' & j' & k' & m' & HT & _ & HF).
  rewrite nth_error_map, Ho in HT. cbn [option_map tet_of_elem] in HT. apply some_eq in HT. injection HT as <- <- <- <-. apply some_eq in H1.
  destruct HF as [[_ HF]|[[_ HF]|[[_ HF]|[_ HF]]]]; injection HF as -> -> ->; rewrite !Nat2Z.id in H1; auto.
Qed.
Theorem C132_in_own_tetrahedron eigh axis P attrs enum hash cs hg e contacts cp : soft_reach eigh axis e -> soft_cd P attrs enum hash cs hg e = Some contacts -> In cp contacts ->
  forall a, 0 <= w4 (sc_wB cp) a.
Proof.
  intros HR H Hin. assert (HRD : forallb ready (sg_bodies e) = true). { unfold soft_cd in H. destruct (forallb ready (sg_bodies e)); [reflexivity|discriminate]. }
  destruct (soft_cd_inv _ _ _ _ _ _ _ _ _ H Hin) as (iA & iB & A & B & aB & tr & r & HA & HB & HG & HP & Hr).
  destruct (contact_of_pair_spec _ _ _ _ _ _ _ _ _ HP Hr) as (x & n & kA & kB & elA & elB & ps & F). destruct F.
  assert (InA : In A (sg_bodies e)) by (eapply nth_error_In; exact HA). rewrite forallb_forall in HRD. pose proof (C111_surface_kept _ _ _ HR A InA (HRD A InA)) as ES.
  pose proof (owner_tet_nth _ _ _ _ cf_oA) as Ho. unfold owner_tet in cf_oA. destruct (py_get (owners (s_T A)) (fst tr)) as [o|] eqn:EO; [|discriminate]. destruct (nth_error (s_T A) o) as [el|] eqn:EL; [|discriminate].
  apply some_eq in cf_oA. injection cf_oA as -> ->. unfold surface_triangle in cf_ps. rewrite ES in cf_ps. destruct (py_get (surface_tris (s_T A)) (fst tr)) as [[[i j] k]|] eqn:ET; [|discriminate]. apply some_eq in cf_ps. subst ps.
  destruct elA as [[[na nb] nc] nd]. pose proof (surface_face _ _ _ _ _ _ _ _ _ _ ET EO EL) as HF. destruct cf_tri as (al & be & ga & Ha & Hb & Hc & Hs & Ep).
  destruct (quad_bary_total _ (sc_p cp) cf_volA) as (w & Ew). destruct (quad_bary_spec _ _ _ Ew) as (_ & _ & _ & U).
  assert (Hw : sc_wB cp = w) by (apply U; [exact cf_wB|rewrite quad_comb_interpolate; exact cf_pA]).
  assert (V : exists v0 v1 v2 v3, sc_wB cp = (v0, v1, v2, v3) /\ 0 <= v0 /\ 0 <= v1 /\ 0 <= v2 /\ 0 <= v3).
  { rewrite Hw. destruct HF as [HF|[HF|[HF|HF]]]; injection HF as -> -> ->; [exists 0, al, be, ga|exists al, 0, ga, be|exists ga, al, 0, be|exists be, al, ga, 0]; (split; [symmetry; apply U|auto with real]).
    all: try (unfold wsum, w4; lra). all: rewrite Ep; unfold quad_comb, tet_corners; vring. }
  destruct V as (v0 & v1 & v2 & v3 & -> & H0 & H1 & H2 & H3). intros [|[|[|a]]]; cbn [w4]; assumption.
Qed.
Print Assumptions C132_in_own_tetrahedron.

(** ** C112 with the collision detection of the simulator *)
(** The hidden state of the collision detection at a step - bounding volumes and hash grid - is given by the step's time stamp: any
    families [attrs] and [hg] are allowed. *)
Definition detection (P : cparams) (attrs : nat -> list cattr) (enum : list report -> list ((nat * nat) * list (Z * Z))) (hash : Z -> Z -> Z -> Z) (cs : R) (hg : nat -> hgrid hobj) (e : sengine) : option (list scontact) :=
  soft_cd P (attrs (sq_stamp (sg_params e))) enum hash cs (hg (sq_stamp (sg_params e))) e.
Lemma detection_momentum P attrs enum hash cs hg : momentum_contacts (detection P attrs enum hash cs hg).
Proof. intros e l cp H Hin. destruct (C132_contacts_sound _ _ _ _ _ _ _ _ _ H Hin) as (H1 & H2 & _). congruence. Qed.
Lemma detection_meeting P attrs enum hash cs hg : meeting_contacts (detection P attrs enum hash cs hg).
Proof. intros e l cp H Hin. destruct (C132_contacts_sound _ _ _ _ _ _ _ _ _ H Hin) as (_ & _ & H1 & H2 & _). congruence. Qed.
(** an isolated engine conserves momentum through collisions, and angular momentum with the SVK and SNH materials *)
Theorem C112_with_detection eigh axis inv P attrs enum hash cs hg sv fuel T e e' dts : soft_reach eigh axis e -> (sg_stepper e = None /\ inv_correct inv \/ stepper_fresh e) -> isolated e ->
  (forall b, In b (sg_bodies e) -> s_dirichlet b = []) -> soft_simulate inv (detection P attrs enum hash cs hg) sv fuel T e = SimEnd e' dts ->
  total_momentum e' = total_momentum e /\
  ((forall b m, In b (sg_bodies e) -> material_of e b = Some m -> sm_model m = SVK \/ sm_model m = SNH) -> total_angular_momentum e' = total_angular_momentum e).
Proof.
  intros HR HF HI HD HS. destruct (C112_simulate eigh axis inv _ sv fuel T e e' dts HR HF HI HD (detection_momentum P attrs enum hash cs hg) HS) as [H1 H2].
  split; [exact H1|]. intros HM. apply H2; [exact HM|apply detection_meeting].
Qed.
Print Assumptions C112_with_detection.
