(** Soft-body collision detection with spatial hashing: it finds what touches (C134); examples (C132-C134). *)
From Verif Require Import Base ListProofs VecModel VecProofs BvhModel BvhSpec BvhProofs KdopProofs GridModel GridProofs SurfModel VolModel BaryModel RigidTypes StepModel CollModel HashModel HashProofs ConProofs MechModel FemModel FemSpec SoftModel SoftSpec SoftProofs SoftProofs2 SoftReach
  SoftFrame SoftCollModel SoftCollProofs ReadySpec ReadyProofs Prop_Geometry Prop_Grid Prop_Bary Prop_Volume Prop_Hash Prop_Contacts Prop_Detect Prop_Fem Prop_Soft Prop_Soft3 Prop_SoftColl Prop_SoftColl2.
Open Scope R_scope.

(** The hash grid as earlier calls of the detection on these bodies left it: filled by any number of insertions with stamps from 0 up to the
    current one, of triangles that the bodies have (their boxes may be out of date). *)
Definition used_grid (bs : list sbody) (ts : Z) (g : hgrid hobj) : Prop := exists H, monotone 0 H /\ (forall e, In e H -> (snd e <= ts)%Z) /\ g = run H hg_empty /\
  forall h t b box t', In (h, (t, b, box), t') H -> exists B, nth_error bs b = Some B /\ (t < length (s_surface B))%nat.
Lemma used_earlier bs ts g : used_grid bs ts g -> earlier_grid ts g.
Proof. intros (H & H1 & H2 & H3 & _). exists H. auto. Qed.
Lemma soft_bodies_at bs b B : nth_error bs b = Some B -> nth b (soft_bodies bs) [] = map (fun ijk : nat * nat * nat => let '(i, j, k) := ijk in (s_x B i, s_x B j, s_x B k)) (s_surface B).
Proof. intros E. apply nth_error_nth. unfold soft_bodies. rewrite nth_error_map, E. reflexivity. Qed.
Lemma soft_bodies_nth bs b : forall t, (t < length (nth b (soft_bodies bs) []))%nat <-> exists B, nth_error bs b = Some B /\ (t < length (s_surface B))%nat.
Proof.
  intros t. split.
  - intros H. destruct (nth_error bs b) as [B|] eqn:E.
    + exists B. split; [reflexivity|]. rewrite (soft_bodies_at bs b B E), map_length in H. exact H.
    + rewrite nth_overflow in H; [cbn in H; lia|]. unfold soft_bodies. rewrite map_length. apply nth_error_None. exact E.
  - intros (B & E & H). rewrite (soft_bodies_at bs b B E), map_length. exact H.
Qed.
Lemma soft_tri_of bs b t B i j k : nth_error bs b = Some B -> nth_error (s_surface B) t = Some (i, j, k) -> tri_of (soft_bodies bs) b t = (s_x B i, s_x B j, s_x B k).
Proof.
  intros E Et. unfold tri_of. rewrite (soft_bodies_at bs b B E).
  apply nth_error_nth. rewrite nth_error_map, Et. reflexivity.
Qed.
Lemma visits_valid cs B b t c : In (b, t, c) (visits cs B) -> (b < length B)%nat /\ (t < length (nth b B []))%nat.
Proof. intros H. unfold visits in H. apply in_flat_map in H. destruct H as (b' & Hb & H). apply in_flat_map in H. destruct H as (t' & Ht & H). apply in_map_iff in H. destruct H as (c' & Ec & _). injection Ec as <- <- _. apply in_seq in Hb, Ht. lia. Qed.
Lemma hash_reports_valid hash cs bs ts g : 0 < cs -> (0 <= ts)%Z -> used_grid bs ts g -> exists g' res, hash_narrow_phase hash cs (soft_bodies bs) ts g = Some (g', res) /\
  forall b ob t ot, In ((b, ob), (t, ot)) res -> (exists B, nth_error bs b = Some B /\ (t < length (s_surface B))%nat) /\ (exists B, nth_error bs ob = Some B /\ (ot < length (s_surface B))%nat).
Proof.
  intros Hc Ht (H & HM & HT & -> & HV). unfold hash_narrow_phase. destruct (Rleb_spec cs 0); [lra|].
  assert (HI : inv H (run H hg_empty)) by (apply (run_inv H [] hg_empty 0%Z); auto using inv_empty; [lia|intros e []]).
  destruct (fold_reports hash (soft_bodies bs) ts (visits cs (soft_bodies bs)) H (run H hg_empty) [] Ht HI HT) as (_ & _ & F).
  destruct (fold_left _ _ _) as [g' res] eqn:E. exists g', res. split; [reflexivity|]. cbn [snd] in F. intros b ob t ot Hr. destruct (F _ Hr) as [[]|(b' & t' & c & [[ot' ob'] box] & h & t'' & H1 & H2 & H3)].
  assert (E3 : b' = b /\ ob' = ob /\ t' = t /\ ot' = ot). { unfold check_overlap in H3. repeat match type of H3 with In _ (if ?c then _ else _) => destruct c end; try contradiction; destruct H3 as [H3|[]]; injection H3 as -> -> -> ->; auto. }
  destruct E3 as (-> & -> & -> & ->). split; [apply soft_bodies_nth; apply visits_valid in H1; tauto|].
  apply in_app_or in H2 as [H2|H2]; [exact (HV _ _ _ _ _ H2)|]. apply in_map_iff in H2 as ([[b2 t2] [[i j] k]] & E2 & V2). cbn in E2. injection E2 as _ <- <- _. apply soft_bodies_nth. apply visits_valid in V2. tauto.
Qed.
Lemma combine_hit {A B} (l : list A) (m : list B) : forall k a, length m = length l -> nth_error l k = Some a -> exists b, nth_error (combine l m) k = Some (a, b) /\ nth_error m k = Some b.
Proof.
  revert m. induction l as [|x l IH]; intros [|y m] k a L H; try (cbn in L; lia); [destruct k; discriminate|]. destruct k as [|k]; cbn in *; [exists y; split; congruence|]. apply (IH m k a); [lia|exact H].
Qed.
Lemma Forall2_nth {A B} (R : A -> B -> Prop) l m : Forall2 R l m -> forall k a b, nth_error l k = Some a -> nth_error m k = Some b -> R a b.
Proof. induction 1; intros [|k] a b; cbn; try discriminate; intros; [congruence|eauto]. Qed.
(** Detection with spatial hashing never raises on bodies it can work on. *)
Lemma hash_run P attrs enum hash cs hg e : cp_hashing P = true -> enumerates enum -> 0 < cs -> Forall2 soft_ready (sg_bodies e) attrs -> used_grid (sg_bodies e) (Z.of_nat (sq_stamp (sg_params e))) hg ->
  exists g' res l, hash_narrow_phase hash cs (soft_bodies (sg_bodies e)) (Z.of_nat (sq_stamp (sg_params e))) hg = Some (g', res) /\ soft_contact_determination P (combine (sg_bodies e) attrs) (enum res) = Some l /\
    soft_cd P attrs enum hash cs hg e = Some (soft_contact_reduction l).
Proof.
  intros HH HE Hc HR HG. destruct (hash_reports_valid hash cs _ _ hg Hc (Zle_0_nat _) HG) as (g' & res & E & HV). pose proof (Forall2_len _ _ _ HR) as HL.
  destruct (determination_total P (combine (sg_bodies e) attrs) (enum res)) as (l & El).
  - intros i j rs Hin. destruct (HE res) as (_ & H2 & H3 & H4). destruct (H2 _ _ Hin) as [_ Hne]. destruct rs as [|[t0 s0] rs0]; [contradiction|].
    assert (HP : forall t s, In (t, s) ((t0, s0) :: rs0) -> (exists B, nth_error (sg_bodies e) i = Some B /\ (Z.to_nat t < length (s_surface B))%nat) /\ (exists B, nth_error (sg_bodies e) j = Some B /\ (Z.to_nat s < length (s_surface B))%nat) /\ (0 <= t)%Z /\ (0 <= s)%Z).
    { intros t s Hts. destruct (H4 _ _ _ _ Hin Hts) as [L1 L2]. destruct (HV i j (Z.to_nat t) (Z.to_nat s)) as [V1 V2]; [|auto]. apply H3. eexists. split; [exact Hin|]. rewrite !Z2Nat.id by assumption. exact Hts. }
    destruct (HP t0 s0 (or_introl eq_refl)) as ((A & EA & _) & (B & EB & _) & _). destruct (combine_hit _ attrs i A HL EA) as (aA & CA & NA). destruct (combine_hit _ attrs j B HL EB) as (aB & CB & NB).
    exists (A, aA), (B, aB). split; [exact CA|]. split; [exact CB|]. split; [exact (Forall2_nth _ _ _ HR _ _ _ EA NA)|]. split; [exact (Forall2_nth _ _ _ HR _ _ _ EB NB)|].
    intros t s Hts. destruct (HP t s Hts) as ((A' & EA' & LA) & (B' & EB' & LB) & L1 & L2). cbn [fst]. assert (A' = A) by congruence. assert (B' = B) by congruence. subst. lia.
  - exists g', res, l. split; [exact E|]. split; [exact El|]. unfold soft_cd. rewrite HL, Nat.eqb_refl, HH.
    assert (HRD : forallb ready (sg_bodies e) = true). { apply forallb_forall. clear - HR. induction HR as [|b a l m (H & _) HB IH]; intros x Hx; [destruct Hx|destruct Hx as [<-|Hx]; auto]. }
    rewrite HRD. cbn [negb andb]. cbv zeta. rewrite E. cbn [snd]. rewrite El. reflexivity.
Qed.
Theorem C134_hash_total P attrs enum hash cs hg e : cp_hashing P = true -> enumerates enum -> 0 < cs -> Forall2 soft_ready (sg_bodies e) attrs -> used_grid (sg_bodies e) (Z.of_nat (sq_stamp (sg_params e))) hg ->
  exists contacts, soft_cd P attrs enum hash cs hg e = Some contacts.
Proof. intros HH HE Hc HR HG. destruct (hash_run P attrs enum hash cs hg e HH HE Hc HR HG) as (g' & res & l & _ & _ & ->). eauto. Qed.
Print Assumptions C134_hash_total.
(** Of two different bodies A and B, let a surface triangle of A and one of B have a common point of the world.  If A's triangle probes B's
    distance field (through the tetrahedron that B's triangle belongs to) at p with distance phi, a contact between B and A at p is reported. *)
Theorem C134_hash_detected P attrs enum hash cs hg e i j A B aB ta tb ia ja ka ib jb kb q o el p phi n : cp_hashing P = true -> enumerates enum -> 0 < cs ->
  Forall2 soft_ready (sg_bodies e) attrs -> used_grid (sg_bodies e) (Z.of_nat (sq_stamp (sg_params e))) hg ->
  i <> j -> nth_error (sg_bodies e) i = Some A -> nth_error (sg_bodies e) j = Some B -> nth_error attrs j = Some aB ->
  nth_error (s_surface A) ta = Some (ia, ja, ka) -> nth_error (s_surface B) tb = Some (ib, jb, kb) ->
  Prop_Contacts.in_triangle q (s_x A ia, s_x A ja, s_x A ka) -> Prop_Contacts.in_triangle q (s_x B ib, s_x B jb, s_x B kb) ->
  nth_error (owners (s_T B)) tb = Some o -> nth_error (s_T B) o = Some el -> soft_probe P B el (ca_grid aB) (s_x A ia, s_x A ja, s_x A ka) p phi n ->
  exists contacts cp, soft_cd P attrs enum hash cs hg e = Some contacts /\ In cp contacts /\ sc_A cp = j /\ sc_B cp = i /\ sc_p cp = p.
Proof.
  intros HH HE Hc HR HG Hij HA HB HaB Hta Htb Hpa Hpb Ho Hel Hpr. destruct (hash_run P attrs enum hash cs hg e HH HE Hc HR HG) as (g' & res & c & En & Ec & E). exists (soft_contact_reduction c). pose proof (Forall2_len _ _ _ HR) as HL.
  destruct (combine_hit _ attrs i A HL HA) as (aA & CA & NA). destruct (combine_hit _ attrs j B HL HB) as (aB' & CB & NB). assert (aB' = aB) by congruence. subst aB'.
  pose proof (Forall2_nth _ _ _ HR _ _ _ HA NA) as RA. pose proof (Forall2_nth _ _ _ HR _ _ _ HB NB) as RB.
  assert (Lta : (ta < length (s_surface A))%nat) by (apply nth_error_Some; congruence). assert (Ltb : (tb < length (s_surface B))%nat) by (apply nth_error_Some; congruence).
  assert (EO : owner_tet B (Z.of_nat tb) = Some (o, el)) by (unfold owner_tet; rewrite BvhProofs.py_get_nat, Ho, Hel; reflexivity).
  assert (EP : surface_triangle A (Z.of_nat ta) = Some (s_x A ia, s_x A ja, s_x A ka)) by (unfold surface_triangle; rewrite BvhProofs.py_get_nat, Hta; reflexivity).
  destruct (contact_of_pair_probe P i j A aA B aB ta tb _ o el p phi n RA RB Lta EP EO Hpr) as (cp0 & Ecp & C1 & C2 & C3 & _).
  assert (Ti : Prop_Hash.in_triangle q (tri_of (soft_bodies (sg_bodies e)) i ta)) by (rewrite (soft_tri_of _ _ _ _ _ _ _ HA Hta); exact Hpa).
  assert (Tj : Prop_Hash.in_triangle q (tri_of (soft_bodies (sg_bodies e)) j tb)) by (rewrite (soft_tri_of _ _ _ _ _ _ _ HB Htb); exact Hpb).
  assert (Li : (i < length (soft_bodies (sg_bodies e)))%nat) by (unfold soft_bodies; rewrite map_length; apply nth_error_Some; congruence). assert (Lj : (j < length (soft_bodies (sg_bodies e)))%nat) by (unfold soft_bodies; rewrite map_length; apply nth_error_Some; congruence).
  assert (Lti : (ta < length (nth i (soft_bodies (sg_bodies e)) []))%nat) by (apply soft_bodies_nth; eauto). assert (Ltj : (tb < length (nth j (soft_bodies (sg_bodies e)) []))%nat) by (apply soft_bodies_nth; eauto).
  destruct (HE res) as (_ & _ & H3 & _).
  assert (Hin : In cp0 c).
  { destruct (Nat.lt_ge_cases i j) as [L|L].
    - destruct (C73_touching_reported hash cs (soft_bodies (sg_bodies e)) _ hg i j ta tb q Hc (Zle_0_nat _) (used_earlier _ _ _ HG) (conj L Lj) Lti Ltj Ti Tj) as (g2 & res2 & E2 & Hr). rewrite En in E2. apply some_eq in E2. injection E2 as <- <-.
      apply H3 in Hr as (rs & Hov & Hrs). destruct (determination_hit P _ (enum res) c j i rs _ _ Ec Hov Hrs (A, aA) (B, aB) [cp0] cp0) as [_ D]. apply D; auto. left. reflexivity.
    - assert (L' : (j < i)%nat) by lia.
      destruct (C73_touching_reported hash cs (soft_bodies (sg_bodies e)) _ hg j i tb ta q Hc (Zle_0_nat _) (used_earlier _ _ _ HG) (conj L' Li) Ltj Lti Tj Ti) as (g2 & res2 & E2 & Hr). rewrite En in E2. apply some_eq in E2. injection E2 as <- <-.
      apply H3 in Hr as (rs & Hov & Hrs). destruct (determination_hit P _ (enum res) c i j rs _ _ Ec Hov Hrs (A, aA) (B, aB) [cp0] cp0) as [D _]. apply D; auto. left. reflexivity. }
  destruct (C135_reduction c) as (_ & Q & _). destruct (Q cp0 Hin) as (cp & Hcp & Q1 & Q2 & Q3). exists cp. split; [exact E|]. split; [exact Hcp|]. split; [congruence|]. split; congruence.
Qed.
Print Assumptions C134_hash_detected.

(** a dictionary of sets, enumerated in the order of first insertion *)
Definition key_eqb (k l : nat * nat) : bool := Nat.eqb (fst k) (fst l) && Nat.eqb (snd k) (snd l).
Lemma key_eqb_iff k l : key_eqb k l = true <-> k = l.
Proof. destruct k, l. unfold key_eqb. cbn. rewrite andb_true_iff, !Nat.eqb_eq. split; [intros [-> ->]; reflexivity|intros H; injection H; auto]. Qed.
Definition pair_dec (k l : nat * nat) : {k = l} + {k <> l}. Proof. decide equality; apply Nat.eq_dec. Defined.
Definition insertion_enum (reports : list report) : list ((nat * nat) * list (Z * Z)) :=
  map (fun k => (k, map (fun v : nat * nat => (Z.of_nat (fst v), Z.of_nat (snd v))) (nodup pair_dec (map snd (filter (fun r : report => key_eqb (fst r) k) reports))))) (nodup pair_dec (map fst reports)).
Lemma insertion_enumerates : enumerates insertion_enum.
Proof.
  intros reports. unfold insertion_enum. split; [|split; [|split]].
  - rewrite map_map. cbn [fst]. rewrite map_id. apply NoDup_nodup.
  - intros k l H. apply in_map_iff in H as (k' & E & Hk). apply (f_equal snd) in E as El. apply (f_equal fst) in E. cbn [fst snd] in E, El. subst k' l. split.
    + apply FinFun.Injective_map_NoDup; [|apply NoDup_nodup]. intros [a b] [c d] E. cbn in E. injection E as E1 E2. apply Nat2Z.inj in E1, E2. congruence.
    + apply nodup_In in Hk. apply in_map_iff in Hk as ([k2 v] & <- & Hr). intros E. apply map_eq_nil in E. assert (Hv : In v (nodup pair_dec (map snd (filter (fun r : report => key_eqb (fst r) k2) reports)))); [|cbn [fst] in E; rewrite E in Hv; destruct Hv].
      apply nodup_In, in_map_iff. exists (k2, v). split; [reflexivity|]. apply filter_In. split; [exact Hr|]. apply key_eqb_iff. reflexivity.
  - intros b ob t ot. split.
    + intros H. eexists. split; [apply in_map_iff; exists (b, ob); split; [reflexivity|]; apply nodup_In, in_map_iff; exists ((b, ob), (t, ot)); auto|]. apply in_map_iff. exists (t, ot). split; [reflexivity|]. apply nodup_In, in_map_iff. exists ((b, ob), (t, ot)). split; [reflexivity|]. apply filter_In. split; [exact H|]. apply key_eqb_iff. reflexivity.
    + intros (l & Hl & H). apply in_map_iff in Hl as (k & E & _). apply (f_equal snd) in E as El. apply (f_equal fst) in E. cbn [fst snd] in E, El. subst k l. apply in_map_iff in H as ([t' ot'] & E & H). cbn in E. injection E as E1 E2. apply Nat2Z.inj in E1, E2. subst t' ot'.
      apply nodup_In, in_map_iff in H as ([k v] & E & H). cbn in E. subst v. apply filter_In in H as [H E]. apply key_eqb_iff in E. cbn in E. subst k. exact H.
  - intros k l t ot H Hl. apply in_map_iff in H as (k' & E & _). apply (f_equal snd) in E. cbn [snd] in E. subst l. apply in_map_iff in Hl as (v & E & _). injection E as <- <-. lia.
Qed.

(** ** a concrete engine: two equal bodies of one tetrahedron each, anywhere in the world *)
Definition k_V : list vec3 := [mkV 1 0 0; mkV 0 1 0; mkV 0 0 (-1); mkV 0 0 0].
Definition k_T : list (list Z) := [[0; 1; 2; 3]%Z].
Definition k_axis : list vec3 -> option vec3 := fun _ => Some (mkV (-3) (-2) 1).
Definition k_x0 : field := fun n => nth n k_V vzero.
Definition k_elem : elem := (0, 1, 2, 3)%nat.
Definition k_place (F : mat3) (t : vec3) : field := fun n => vadd (mvec F (k_x0 n)) t.
Definition k_body (nm : name) (off : nat) (I0 : list mat3) (x : field) : sbody :=
  mkSBody nm Complete off 4 [k_elem] (surface_tris [k_elem]) k_x0 [elem_volume k_x0 k_elem] (compute_outward_face_vectors k_x0 [k_elem]) I0 None None x fzero [] [] None (mkV 0 (- (982 / 100)) 0) true false.
Definition k_engine eigh (I0 : list mat3) (x y : field) : sengine :=
  mkSE [(default_name, material_init eigh)] library_init sparameters_init [k_body [1%nat] 0 I0 x; k_body [2%nat] 4 I0 y] [] 8 None.
Lemma k_sort : axis_sort k_V k_T (mkV (-3) (-2) 1) = Some (k_V, k_T).
Proof.
  assert (U : exists u, v3_unit (mkV (-3) (-2) 1) = mkV (-3 * u) (-2 * u) (1 * u) /\ 0 < u).
  { unfold v3_unit. set (s := vnorm (mkV (-3) (-2) 1)). assert (0 < s). { unfold s, vnorm. apply sqrt_lt_R0. vunf. lra. } exists (/ s). split; [vunf; f_equal; field; lra|]. apply Rinv_0_lt_compat. assumption. }
  destruct U as (u & U & Hu). unfold axis_sort. rewrite U. cbv zeta. set (ax := mkV (-3 * u) (-2 * u) (1 * u)).
  assert (A1 : argsort (fun k => nth k (map (fun p => vdot p ax) k_V) 0) (length k_V) = [0; 1; 2; 3]%nat).
  { unfold argsort, isort, k_V, ax. cbn [length seq fold_right insert map nth]. repeat (rewrite (proj2 (Rleb_true _ _)) by (vunf; lra); cbn [insert]). reflexivity. }
  rewrite A1.
  assert (A2 : argsort (fun k => INR (nth k [0; 1; 2; 3]%nat 0%nat)) (length (map (fun p => vdot p ax) k_V)) = [0; 1; 2; 3]%nat).
  { unfold argsort, isort, k_V. cbn [length seq fold_right insert map nth]. repeat (rewrite (proj2 (Rleb_true _ _)) by (apply le_INR; lia); cbn [insert]). reflexivity. }
  rewrite A2. reflexivity.
Qed.
Lemma k_volume : elem_volume k_x0 k_elem = 1 / 6.
Proof. unfold elem_volume, corners. cbn [node k_elem]. unfold k_x0, k_V. cbn [nth]. vunf. field. Qed.
Lemma k_D0 : exists I0, compute_inverse_D0 k_x0 [k_elem] = Some I0.
Proof. apply (C105_raises k_x0 k_x0). repeat constructor. rewrite k_volume. lra. Qed.
Lemma k_create eigh e nm I0 : compute_inverse_D0 k_x0 [k_elem] = Some I0 -> find_sbody e nm = None ->
  srun eigh k_axis (SCreateBody nm k_V k_T) e = SDone (mkSE (sg_materials e) (sg_lib e) (sg_params e) (sg_bodies e ++ [k_body nm (sg_N e) I0 k_x0]) (sg_contacts e) (sg_N e + 4) (sg_stepper e)).
Proof.
  intros HI HF. cbn [srun]. unfold create_soft_body. rewrite HF. unfold k_axis at 1. rewrite k_sort. cbn [map_all elem_of_row k_T Z.to_nat].
  change (Pos.to_nat 1) with 1%nat. change (Pos.to_nat 2) with 2%nat. change (Pos.to_nat 3) with 3%nat. change (0, 1, 2, 3)%nat with k_elem. change (fun n : nat => nth n k_V vzero) with k_x0.
  cbv zeta. rewrite HI. reflexivity.
Qed.
Lemma k_reach eigh I0 x y : compute_inverse_D0 k_x0 [k_elem] = Some I0 -> soft_reach eigh k_axis (k_engine eigh I0 x y).
Proof.
  intros HI.
  assert (R1 := SoftSpec.reach_call eigh k_axis _ _ _ (SoftSpec.reach_init eigh k_axis) (or_introl (k_create eigh (soft_engine_init eigh) [1%nat] I0 HI eq_refl))).
  match type of R1 with soft_reach _ _ ?e => assert (R2 := SoftSpec.reach_call eigh k_axis _ _ _ R1 (or_introl (k_create eigh e [2%nat] I0 HI eq_refl))) end.
  eapply (SoftSpec.reach_call _ _ (k_engine eigh I0 x k_x0) (SSetCoordinates [2%nat] 4 y)); [|left; reflexivity].
  eapply (SoftSpec.reach_call _ _ (k_engine eigh I0 k_x0 k_x0) (SSetCoordinates [1%nat] 4 x)); [exact R2|left; reflexivity].
Qed.
Definition k_params (hashing : bool) : cparams := mkCP 100 (1 / 1000) 3 (1 / 10) hashing.
Definition k_attr (tr : tree) : cattr := mkCA d_grid (Some tr).
Lemma k_grid : grid_ready d_grid.
Proof. exists (mkV (-2) (-2) (-2)), (mkV 2 2 2), 2%Z, 2%Z, 2%Z, (fun i _ _ => 4 * IZR i - 12). split; [apply d_grid_of|]. split; [apply d_values|]. cbn. lra. Qed.
Lemma k_placed_volume F t : elem_volume (k_place F t) k_elem = mdet F * elem_volume k_x0 k_elem.
Proof. unfold elem_volume, corners. cbn [node k_elem]. unfold k_place, k_x0, k_V. cbn [nth]. destruct F, t. unfold mvec, mdet. vunf. field. Qed.
Lemma k_ready nm off I0 F t a : mdet F <> 0 -> ca_grid a = d_grid -> soft_ready (k_body nm off I0 (k_place F t)) a.
Proof.
  intros HF Ha. split; [reflexivity|]. split; [reflexivity|]. split; [|split].
  - cbn [k_body s_n s_T]. constructor; [|constructor]. intros a'. destruct a' as [|[|[|a']]]; cbn; lia.
  - cbn [k_body s_x s_x0 s_T]. intros el [<-|[]]. rewrite k_placed_volume. rewrite k_volume. split; [intros E; apply HF; lra|lra].
  - rewrite Ha. apply k_grid.
Qed.
Lemma k_tree : exists tr, forall nm off I0 x, bvh_ready (k_params false) (k_body nm off I0 x) (k_attr tr).
Proof.
  set (V := soft_vertices (k_body [] 0 [] k_x0)). set (T := soft_elements (k_body [] 0 [] k_x0)).
  assert (HM : BvhSpec.valid_mesh V T). { intros el H. vm_compute in H. repeat match goal with H : _ \/ _ |- _ => destruct H as [<-|H] | H : False |- _ => destruct H end; eexists; reflexivity. }
  destruct (C20_make_bvh_shape V T 3 255 (1/10) (or_introl eq_refl) HM ltac:(lia)) as (tr & E & _). exists tr. intros nm off I0 x. exists tr, 255%Z, V, (1/10). split; [reflexivity|]. split; [lia|]. apply BvhSpec.reach_make; [exact HM|exact E].
Qed.
Lemma k_image nm off I0 F t q : material_image (k_body nm off I0 (k_place F t)) k_elem (vadd (mvec F q) t) q.
Proof.
  exists (vx q, vy q, - vz q, 1 - vx q - vy q + vz q). cbn [k_body s_x s_x0]. unfold interpolate, k_place, k_x0, k_V, k_elem. cbn [node nth]. unfold SoftSpec.wsum. cbn [w4]. destruct F as [f0 f1 f2 f3 f4 f5 f6 f7 f8], t as [t0 t1 t2], q as [q0 q1 q2]. cbn [vx vy vz].
  split; [ring|]. split; unfold mvec; vunf; f_equal; ring.
Qed.
Definition boxed (q : vec3) : Prop := -5/4 <= vx q <= 5/4 /\ -5/4 <= vy q <= 5/4 /\ -5/4 <= vz q <= 5/4.
Lemma k_probe P nm off I0 F t q0 q1 q2 : boxed q0 -> boxed q1 -> boxed q2 -> 0 <= cp_envelope P ->
  exists x, soft_probe P (k_body nm off I0 (k_place F t)) k_elem d_grid (vadd (mvec F q0) t, vadd (mvec F q1) t, vadd (mvec F q2) t) (vadd (mvec F x) t) (vx x - 10) (mkV 1 0 0).
Proof.
  intros (B0 & B0' & B0'') (B1 & B1' & B1'') (B2 & B2' & B2'') HE. destruct (fw_point_total (get_gradient d_grid) (cp_tolerance P) (cp_iterations P) (q0, q1, q2)) as (x & Ex). { intros q. rewrite d_gradient. eauto. }
  exists x, q0, q1, q2, x. split; [apply k_image|]. split; [apply k_image|]. split; [apply k_image|]. split; [exact Ex|]. split; [apply k_image|].
  assert (BX : -5/4 <= vx x <= 5/4 /\ -5/4 <= vy x <= 5/4 /\ -5/4 <= vz x <= 5/4).
  { destruct (C54_stays_on_triangle _ _ _ _ _ Ex) as (a & b & c & Ha & Hb & Hc & Hs & ->). cbn [vx vy vz vadd vscale].
    assert (G : forall u v w, -5/4 <= u <= 5/4 -> -5/4 <= v <= 5/4 -> -5/4 <= w <= 5/4 -> -5/4 <= a * u + b * v + c * w <= 5/4) by (intros; split; nra). repeat split; apply G; assumption. }
  split. { unfold grid_is_inside. cbn [g_min g_max d_grid vx vy vz]. repeat match goal with |- (if Rltb ?u ?v then _ else _) = _ => destruct (Rltb_spec u v); [exfalso; lra|] end. reflexivity. }
  split; [apply d_value|]. split; [lra|]. split; [apply d_gradient|]. intros H. injection H. lra.
Qed.
Lemma k_corner (a b c : vec3) : Prop_Contacts.in_triangle a (a, b, c).
Proof. exists 1, 0, 0. split; [lra|]. split; [lra|]. split; [lra|]. split; [lra|]. destruct a, b, c. vunf. f_equal; ring. Qed.
Definition k_turn : mat3 := mkM 0 (-1) 0 1 0 0 0 0 1.
Definition k_rotation (F : mat3) : Prop := mmul (mT F) F = mid /\ mdet F = 1.
Lemma k_turn_rotation : k_rotation k_turn.
Proof. split; [unfold mmul, mT, mid, k_turn; cbn; f_equal; ring|unfold mdet, k_turn; cbn; ring]. Qed.

(** If the first body's tetrahedron has been turned by a rotation F, one expects the normal to be turned by F as well.  It is not: two
    bodies turned by 90 degrees about the z axis, and the reported normal is the opposite of the turned gradient. *)
Theorem C133_normal_refuted eigh : exists e P attrs contacts cp A el F x0 g n,
  soft_reach eigh k_axis e /\ (forall enum hash cs hg, soft_cd P attrs enum hash cs hg e = Some contacts) /\ In cp contacts /\
  nth_error (sg_bodies e) (sc_A cp) = Some A /\ nth_error (s_T A) (sc_tetA cp) = Some el /\ k_rotation F /\ carried A el F vzero /\
  contact_point (sg_bodies e) s_x0 (sc_A cp) (sc_tetA cp) (sc_wA cp) = Some x0 /\ nth_error (map ca_grid attrs) (sc_A cp) = Some g /\ get_gradient g x0 = Some n /\
  sc_n cp = vscale (-1) (v3_unit (mvec F n)).
Proof.
  destruct k_D0 as (I0 & HI). destruct k_tree as (tr & HT). set (x := k_place k_turn vzero). set (e := k_engine eigh I0 x x). set (P := k_params false). set (attrs := [k_attr tr; k_attr tr]).
  assert (HD : mdet k_turn <> 0) by (destruct k_turn_rotation as [_ ->]; lra).
  assert (HR : Forall2 (fun b a => soft_ready b a /\ bvh_ready P b a) (sg_bodies e) attrs). { constructor; [split; [apply k_ready; [exact HD|reflexivity]|apply HT]|constructor; [split; [apply k_ready; [exact HD|reflexivity]|apply HT]|constructor]]. }
  set (A := k_body [1%nat] 0 I0 x). set (B := k_body [2%nat] 4 I0 x).
  assert (BX : forall n, boxed (k_x0 n)). { intros [|[|[|[|n]]]]; unfold boxed, k_x0, k_V; cbn; try lra. destruct n; cbn; lra. }
  destruct (k_probe P [2%nat] 4 I0 k_turn vzero (k_x0 1%nat) (k_x0 2%nat) (k_x0 3%nat) (BX _) (BX _) (BX _)) as (q & Hq); [cbn; lra|].
  assert (X : forall enum hash cs hg, exists contacts cp, soft_cd P attrs enum hash cs hg e = Some contacts /\ In cp contacts /\ sc_A cp = 1%nat /\ sc_B cp = 0%nat /\ sc_p cp = vadd (mvec k_turn q) vzero).
  { intros enum hash cs hg. apply (C134_bvh_detected P attrs enum hash cs hg e 0 1 A B (k_attr tr) 0 0 1 2 3 1 2 3 (x 1%nat) (x 1%nat) 0 k_elem (vadd (mvec k_turn q) vzero) (vx q - 10) (mkV 1 0 0)); auto.
    - left. reflexivity.
    - apply k_corner.
    - apply k_corner.
    - unfold vnorm. replace (vdot _ _) with 0 by (vunf; ring). rewrite sqrt_0. cbn. lra. }
  destruct (X insertion_enum (fun _ _ _ => 0%Z) 1 hg_empty) as (contacts & cp & E & Hin & E1 & E2 & E3).
  assert (Hall : forall enum hash cs hg, soft_cd P attrs enum hash cs hg e = Some contacts) by (intros; exact E).
  destruct (soft_cd_inv _ _ _ _ _ _ _ _ _ E Hin) as (iA & iB & A' & B' & aB & ttr & r & HA & HB & HaB & HC & Hr).
  destruct (contact_of_pair_spec _ _ _ _ _ _ _ _ _ HC Hr) as (y & n' & kA & kB & elA & elB & ps & FF). destruct FF. rewrite E1 in cf_A. subst iB. cbn in HB, HaB. apply some_eq in HB, HaB. subst B' aB. fold B in cf_oB.
  pose proof (owner_tet_nth _ _ _ _ cf_oB) as HO. assert (kB = 0%nat /\ elB = k_elem) as [-> ->]. { destruct kB as [|[|kB]]; cbn in HO; [apply some_eq in HO; auto| |]; discriminate. }
  exists e, P, attrs, contacts, cp, B, k_elem, k_turn, y, d_grid, (mkV 1 0 0). split; [apply k_reach; exact HI|]. split; [exact Hall|]. split; [exact Hin|]. rewrite E1, cf_tA. split; [reflexivity|]. split; [reflexivity|]. split; [exact k_turn_rotation|]. split; [intros a; reflexivity|].
  split. { unfold contact_point. cbn [nth_error sg_bodies e k_engine]. fold B. cbn [s_T B k_body nth_error]. f_equal. exact cf_x. }
  split; [reflexivity|]. split; [apply d_gradient|].
  destruct cf_n as (s & Hs & ->). cbn [ca_grid k_attr] in cf_grad. rewrite d_gradient in cf_grad. apply some_eq in cf_grad. subst n'.
  assert (ES : edge_rows (tet_corners (s_x0 B) k_elem) = mkM 1 0 0 0 1 0 0 0 (-1)) by (unfold edge_rows, tet_corners, k_elem; cbn; f_equal; ring). assert (Hs' : mvec (mkM 1 0 0 0 1 0 0 0 (-1)) s = mkV 1 0 0) by (rewrite <- ES; exact Hs). clear Hs. rename Hs' into Hs.
  assert (s = mkV 1 0 0). { destruct s as [s0 s1 s2]. unfold mvec in Hs; cbn in Hs. injection Hs as H1 H2 H3. f_equal; lra. } subst s.
  etransitivity; [apply (f_equal (fun M => v3_unit (mvec M (mkV 1 0 0)))); exact (edge_rows_carried B k_elem k_turn vzero (fun a => eq_refl))|]. cbv beta. rewrite ES. clear.
  replace (mvec (mmul (mkM 1 0 0 0 1 0 0 0 (-1)) (mT k_turn)) (mkV 1 0 0)) with (mkV 0 (-1) 0) by (unfold mmul, mT, k_turn, mvec; cbn; f_equal; ring). replace (mvec k_turn (mkV 1 0 0)) with (mkV 0 1 0) by (unfold k_turn, mvec; cbn; f_equal; ring).
  unfold v3_unit, vnorm. replace (vdot (mkV 0 (-1) 0) (mkV 0 (-1) 0)) with 1 by (vunf; ring). replace (vdot (mkV 0 1 0) (mkV 0 1 0)) with 1 by (vunf; ring). rewrite sqrt_1. vunf. f_equal; field.
Qed.
Print Assumptions C133_normal_refuted.

(** bodies that touch: found in both modes *)
Example C134_nonvacuous eigh hashing : exists e attrs, soft_reach eigh k_axis e /\ Forall2 (fun b a => soft_ready b a /\ bvh_ready (k_params false) b a) (sg_bodies e) attrs /\
  used_grid (sg_bodies e) (Z.of_nat (sq_stamp (sg_params e))) hg_empty /\
  exists contacts cp, soft_cd (k_params hashing) attrs insertion_enum (fun _ _ _ => 0%Z) 1 hg_empty e = Some contacts /\ In cp contacts /\ sc_A cp = 1%nat /\ sc_B cp = 0%nat.
Proof.
  destruct k_D0 as (I0 & HI). destruct k_tree as (tr & HT). set (x := k_place k_turn vzero). set (e := k_engine eigh I0 x x). set (attrs := [k_attr tr; k_attr tr]).
  assert (HD : mdet k_turn <> 0) by (destruct k_turn_rotation as [_ ->]; lra).
  assert (HR : Forall2 (fun b a => soft_ready b a /\ bvh_ready (k_params false) b a) (sg_bodies e) attrs). { constructor; [split; [apply k_ready; [exact HD|reflexivity]|apply HT]|constructor; [split; [apply k_ready; [exact HD|reflexivity]|apply HT]|constructor]]. }
  assert (HR' : Forall2 soft_ready (sg_bodies e) attrs). { constructor; [apply k_ready; [exact HD|reflexivity]|constructor; [apply k_ready; [exact HD|reflexivity]|constructor]]. }
  assert (HG : used_grid (sg_bodies e) (Z.of_nat (sq_stamp (sg_params e))) hg_empty). { exists []. split; [exact I|]. split; [intros ev []|]. split; [reflexivity|intros h t b box t' []]. }
  set (A := k_body [1%nat] 0 I0 x). set (B := k_body [2%nat] 4 I0 x).
  assert (BX : forall n, boxed (k_x0 n)). { intros [|[|[|[|n]]]]; unfold boxed, k_x0, k_V; cbn; try lra. destruct n; cbn; lra. }
  exists e, attrs. split; [apply k_reach; exact HI|]. split; [exact HR|]. split; [exact HG|].
  destruct (k_probe (k_params hashing) [2%nat] 4 I0 k_turn vzero (k_x0 1%nat) (k_x0 2%nat) (k_x0 3%nat) (BX _) (BX _) (BX _)) as (q & Hq); [cbn; lra|].
  assert (X : exists contacts cp, soft_cd (k_params hashing) attrs insertion_enum (fun _ _ _ => 0%Z) 1 hg_empty e = Some contacts /\ In cp contacts /\ sc_A cp = 1%nat /\ sc_B cp = 0%nat /\ sc_p cp = vadd (mvec k_turn q) vzero).
  { destruct hashing.
    - apply (C134_hash_detected (k_params true) attrs insertion_enum (fun _ _ _ => 0%Z) 1 hg_empty e 0 1 A B (k_attr tr) 0 0 1 2 3 1 2 3 (x 1%nat) 0 k_elem (vadd (mvec k_turn q) vzero) (vx q - 10) (mkV 1 0 0)); auto; [exact insertion_enumerates|lra|apply k_corner|apply k_corner].
    - apply (C134_bvh_detected (k_params false) attrs insertion_enum (fun _ _ _ => 0%Z) 1 hg_empty e 0 1 A B (k_attr tr) 0 0 1 2 3 1 2 3 (x 1%nat) (x 1%nat) 0 k_elem (vadd (mvec k_turn q) vzero) (vx q - 10) (mkV 1 0 0)); auto; [left; reflexivity|apply k_corner|apply k_corner|].
      unfold vnorm. replace (vdot _ _) with 0 by (vunf; ring). rewrite sqrt_0. cbn. lra. }
  destruct X as (contacts & cp & E & Hin & E1 & E2 & _). exists contacts, cp. auto.
Qed.

(** With spatial hashing the envelope is not taken into account when pairs of triangles are sought: of two bodies 1/20 apart, with an envelope of
    1/10, the bounding volume hierarchies yield a contact and the hash grid none. *)
Lemma enum_nil enum : enumerates enum -> enum [] = [].
Proof.
  intros HE. destruct (HE []) as (_ & H2 & H3 & H4). destruct (enum []) as [|[[b ob] l] r]; [reflexivity|exfalso]. destruct (H2 (b, ob) l (or_introl eq_refl)) as [_ HN]. destruct l as [|[t ot] l]; [contradiction|].
  destruct (H4 (b, ob) _ t ot (or_introl eq_refl) (or_introl eq_refl)) as [L1 L2]. destruct (proj2 (H3 b ob (Z.to_nat t) (Z.to_nat ot))). eexists. split; [left; reflexivity|]. left. rewrite !Z2Nat.id by assumption. reflexivity.
Qed.
Definition k_away : vec3 := mkV (21/20) 0 0.
Definition k_tris (s : R) : list tri3 := [(mkV s 1 0, mkV s 0 (-1), mkV s 0 0); (mkV (1 + s) 0 0, mkV s 0 0, mkV s 0 (-1)); (mkV s 1 0, mkV s 0 0, mkV (1 + s) 0 0); (mkV s 1 0, mkV (1 + s) 0 0, mkV s 0 (-1))].
Lemma k_tris_of nm off I0 s : (fun b => map (fun ijk : nat * nat * nat => let '(i, j, k) := ijk in (s_x b i, s_x b j, s_x b k)) (s_surface b)) (k_body nm off I0 (k_place mid (mkV s 0 0))) = k_tris s.
Proof.
  cbn [k_body s_x s_surface]. change (surface_tris [k_elem]) with [(1, 2, 3); (0, 3, 2); (1, 3, 0); (1, 0, 2)]%nat. unfold k_tris. cbn [map].
  assert (X : forall n p q, k_x0 n = p -> vadd p (mkV s 0 0) = q -> k_place mid (mkV s 0 0) n = q). { intros n p q <- <-. unfold k_place. f_equal. generalize (k_x0 n). intros [a b c]. unfold mvec, mid; cbn. f_equal; ring. }
  assert (X0 : k_place mid (mkV s 0 0) 0%nat = mkV (1 + s) 0 0) by (apply (X _ _ _ eq_refl); unfold k_x0, k_V; cbn [nth]; vunf; f_equal; ring). assert (X1 : k_place mid (mkV s 0 0) 1%nat = mkV s 1 0) by (apply (X _ _ _ eq_refl); unfold k_x0, k_V; cbn [nth]; vunf; f_equal; ring).
  assert (X2 : k_place mid (mkV s 0 0) 2%nat = mkV s 0 (-1)) by (apply (X _ _ _ eq_refl); unfold k_x0, k_V; cbn [nth]; vunf; f_equal; ring). assert (X3 : k_place mid (mkV s 0 0) 3%nat = mkV s 0 0) by (apply (X _ _ _ eq_refl); unfold k_x0, k_V; cbn [nth]; vunf; f_equal; ring).
  rewrite X0, X1, X2, X3. reflexivity.
Qed.
Lemma k_tris_facts s t : (t < 4)%nat -> let tr := nth t (k_tris s) (vzero, vzero, vzero) in In 0 (tri_coords tr) /\ vx (bx_max (tri_box tr)) <= 1 + s /\ s <= vx (bx_min (tri_box tr)).
Proof.
  intros Ht tr. split; [|split].
  - destruct t as [|[|[|[|t]]]]; try lia; unfold tr, k_tris, tri_coords; cbn; tauto.
  - destruct t as [|[|[|[|t]]]]; try lia; unfold tr, k_tris, tri_box; cbn; repeat apply Rmax_lub; lra.
  - destruct t as [|[|[|[|t]]]]; try lia; unfold tr, k_tris, tri_box; cbn; repeat apply Rmin_glb; lra.
Qed.
Lemma k_no_reports hash cs I0 g' res : let bs := [k_body [1%nat] 0 I0 (k_place mid (mkV 0 0 0)); k_body [2%nat] 4 I0 (k_place mid (mkV (21/20) 0 0))] in
  hash_narrow_phase hash cs (soft_bodies bs) 0 hg_empty = Some (g', res) -> res = [].
Proof.
  intros bs E. assert (EB : soft_bodies bs = [k_tris 0; k_tris (21/20)]). { unfold soft_bodies, bs. cbn [map]. rewrite <- (k_tris_of [1%nat] 0 I0 0), <- (k_tris_of [2%nat] 4 I0 (21/20)). reflexivity. }
  rewrite EB in E. destruct res as [|[[b a] [tb ta]] res']; [reflexivity|exfalso]. destruct (C73_sound_partial hash cs _ 0 g' _ b a tb ta ltac:(lia) E (or_introl eq_refl)) as (Lb & La & Ltb & Lta & HO & HS).
  assert (SV : forall t1 t2 : tri3, In 0 (tri_coords t1) -> In 0 (tri_coords t2) -> is_share_vertex t1 t2 = true). { intros t1 t2 H1 H2. unfold is_share_vertex. apply existsb_exists. exists 0. split; [exact H1|]. apply existsb_exists. exists 0. split; [exact H2|]. destruct (Reqb_spec 0 0); [reflexivity|contradiction]. }
  assert (N1 : forall t1 t2 b1 b2, In 0 (tri_coords t1) -> In 0 (tri_coords t2) -> is_self_collision t1 t2 b1 b2 = true -> False). { intros t1 t2 b1 b2 H1 H2. unfold is_self_collision. rewrite (SV t1 t2 H1 H2). discriminate. }
  apply overlap_le in HO. destruct HO as [(O1 & _) (O2 & _)]. unfold grow_box in O1, O2. cbn [bx_min bx_max vx vsub vadd] in O1, O2.
  destruct b as [|[|b]], a as [|[|a]]; try (cbn in Lb, La; lia); cbn [nth] in Ltb, Lta; change (tb < 4)%nat in Ltb; change (ta < 4)%nat in Lta.
  - specialize (HS eq_refl). apply (N1 _ _ _ _ (proj1 (k_tris_facts 0 tb Ltb)) (proj1 (k_tris_facts 0 ta Lta)) HS).
  - destruct (k_tris_facts 0 tb Ltb) as (_ & F1 & _). destruct (k_tris_facts (21/20) ta Lta) as (_ & _ & F2). unfold tri_of in O1, O2. cbn [nth] in O1, O2. lra.
  - destruct (k_tris_facts (21/20) tb Ltb) as (_ & _ & F1). destruct (k_tris_facts 0 ta Lta) as (_ & F2 & _). unfold tri_of in O1, O2. cbn [nth] in O1, O2. lra.
  - specialize (HS eq_refl). apply (N1 _ _ _ _ (proj1 (k_tris_facts (21/20) tb Ltb)) (proj1 (k_tris_facts (21/20) ta Lta)) HS).
Qed.
Theorem C134_envelope_refuted eigh : exists e attrs contacts, soft_reach eigh k_axis e /\ Forall2 (fun b a => soft_ready b a /\ bvh_ready (k_params false) b a) (sg_bodies e) attrs /\
  (forall enum hash cs hg, soft_cd (k_params false) attrs enum hash cs hg e = Some contacts) /\ contacts <> [] /\
  (forall enum hash cs, enumerates enum -> 0 < cs -> soft_cd (k_params true) attrs enum hash cs hg_empty e = Some []).
Proof.
  destruct k_D0 as (I0 & HI). destruct k_tree as (tr & HT). set (e := k_engine eigh I0 (k_place mid (mkV 0 0 0)) (k_place mid (mkV (21/20) 0 0))). set (attrs := [k_attr tr; k_attr tr]).
  assert (HD : mdet mid <> 0) by (unfold mdet, mid; cbn; lra).
  assert (HR : Forall2 (fun b a => soft_ready b a /\ bvh_ready (k_params false) b a) (sg_bodies e) attrs). { constructor; [split; [apply k_ready; [exact HD|reflexivity]|apply HT]|constructor; [split; [apply k_ready; [exact HD|reflexivity]|apply HT]|constructor]]. }
  assert (HR' : Forall2 soft_ready (sg_bodies e) attrs). { constructor; [apply k_ready; [exact HD|reflexivity]|constructor; [apply k_ready; [exact HD|reflexivity]|constructor]]. }
  assert (HG : used_grid (sg_bodies e) (Z.of_nat (sq_stamp (sg_params e))) hg_empty). { exists []. split; [exact I|]. split; [intros ev []|]. split; [reflexivity|intros h t b box t' []]. }
  set (A := k_body [1%nat] 0 I0 (k_place mid (mkV 0 0 0))). set (B := k_body [2%nat] 4 I0 (k_place mid (mkV (21/20) 0 0))).
  set (q := fun n => vsub (k_x0 n) (mkV (21/20) 0 0)).
  assert (BX : forall n, boxed (q n)). { intros [|[|[|[|n]]]]; unfold q, boxed, k_x0, k_V; cbn; try lra. destruct n; cbn; lra. }
  assert (EQ : forall n, vadd (mvec mid (q n)) (mkV (21/20) 0 0) = k_place mid (mkV 0 0 0) n). { intros n. unfold k_place, q. generalize (k_x0 n). intros [a b c]. unfold mvec, mid. vunf. f_equal; field. }
  destruct (k_probe (k_params false) [2%nat] 4 I0 mid (mkV (21/20) 0 0) (q 0%nat) (q 3%nat) (q 2%nat) (BX _) (BX _) (BX _)) as (y & Hy); [cbn; lra|]. rewrite !EQ in Hy.
  assert (X : exists contacts cp, soft_cd (k_params false) attrs insertion_enum (fun _ _ _ => 0%Z) 1 hg_empty e = Some contacts /\ In cp contacts /\ sc_A cp = 1%nat /\ sc_B cp = 0%nat /\ sc_p cp = vadd (mvec mid y) (mkV (21/20) 0 0)).
  { apply (C134_bvh_detected (k_params false) attrs insertion_enum (fun _ _ _ => 0%Z) 1 hg_empty e 0 1 A B (k_attr tr) 1 0 0 3 2 1 2 3 (mkV 1 0 0) (mkV (21/20) 0 0) 0 k_elem (vadd (mvec mid y) (mkV (21/20) 0 0)) (vx y - 10) (mkV 1 0 0)); auto.
    - left. reflexivity.
    - exists 1, 0, 0. split; [lra|]. split; [lra|]. split; [lra|]. split; [lra|]. cbn [A k_body s_x]. unfold k_place, k_x0, k_V, mvec, mid; cbn [nth]. vunf. f_equal; ring.
    - exists 0, 0, 1. split; [lra|]. split; [lra|]. split; [lra|]. split; [lra|]. cbn [B k_body s_x]. unfold k_place, k_x0, k_V, mvec, mid; cbn [nth]. vunf. f_equal; ring.
    - unfold vnorm. replace (vdot _ _) with ((1/20) * (1/20)) by (vunf; field). rewrite sqrt_square; cbn; lra. }
  destruct X as (contacts & cp & E & Hin & _). exists e, attrs, contacts. split; [apply k_reach; exact HI|]. split; [exact HR|]. split; [intros; exact E|]. split; [intros Z; rewrite Z in Hin; destruct Hin|].
  intros enum hash cs HE Hc. destruct (hash_run (k_params true) attrs enum hash cs hg_empty e eq_refl HE Hc HR' HG) as (g' & res & l & En & El & ->). assert (res = []) by exact (k_no_reports hash cs I0 g' res En). subst res. rewrite (enum_nil enum HE) in El. cbn in El. apply some_eq in El. subst l. reflexivity.
Qed.
Print Assumptions C134_envelope_refuted.
