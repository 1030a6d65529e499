(** Completeness of the rigid body collision detection: C130. *)
From Verif Require Import Base QuatModel VecModel BvhModel GridModel VolModel VecProofs QuatProofs QuatMatProofs GridProofs BvhSpec
  KdopProofs BvhProofs RigidTypes RigidSpec CollModel StepModel StepProofs StepProofs2 ReadySpec ReadyProofs ConSpec ConProofs ConProofs2
  Prop_Geometry Prop_Grid Prop_Step Prop_Constraints Prop_Contacts.
Open Scope R_scope.

(** the world triangle number t of body b, whose shape is s *)
Definition world_triangle (b : body) (s : shape) (t : nat) (ps : vec3 * vec3 * vec3) : Prop :=
  exists a0 a1 a2, tri_corners (sh_V s) (sh_T s) (Z.of_nat t) = Some (a0, a1, a2) /\ ps = (to_world b a0, to_world b a1, to_world b a2).
(** The triangle ps of body A (in the world) probes the distance field of body B at the world point p: there the search
    along the triangle ends, at least 1/2 inside the grid's box, the distance is phi, at most the envelope, and the
    gradient is n, not zero. *)
Definition probe (P : params) (B : body) (sB : shape) (ps : vec3 * vec3 * vec3) (p : vec3) (phi : R) (n : vec3) : Prop :=
  let '(p0, p1, p2) := ps in exists x,
    fw_point (get_gradient (sh_grid sB)) (p_opt_tol P) (p_opt_iterations P) (to_body B p0, to_body B p1, to_body B p2) = Some x /\
    p = to_world B x /\ grid_is_inside (sh_grid sB) x (1/2) = Some true /\
    get_value (sh_grid sB) x = Some phi /\ phi <= p_envelope P /\ get_gradient (sh_grid sB) x = Some n /\ n <> vzero.

Lemma map_opt_hit {A B} (f : A -> option B) l : forall r a, map_opt f l = Some r -> In a l -> exists b, f a = Some b /\ In b r.
Proof.
  induction l as [|x l IH]; intros r a H Ha; [destruct Ha|]. cbn in H. destruct (f x) as [b|] eqn:E; [|discriminate].
  destruct (map_opt f l) as [r'|] eqn:E'; [|discriminate]. apply some_eq in H. subst r. destruct Ha as [<-|Ha].
  - exists b. split; [auto|left; auto].
  - destruct (IH r' a eq_refl Ha) as (b' & Hb & Hin). exists b'. split; [auto|right; auto].
Qed.
Lemma tri_corners_map_eq f V T t p0 p1 p2 : tri_corners V T t = Some (p0, p1, p2) -> tri_corners (map f V) T t = Some (f p0, f p1, f p2).
Proof.
  unfold tri_corners. destruct (py_get T t) as [[[i j] k]|]; [|discriminate]. rewrite !py_get_map.
  destruct (py_get V i); cbn; [|discriminate]. destruct (py_get V j); cbn; [|discriminate]. destruct (py_get V k); cbn; [|discriminate].
  intros H. congruence.
Qed.
Lemma combinations2_has {A} (l : list A) : forall i j a b, (i < j)%nat -> nth_error l i = Some a -> nth_error l j = Some b -> In (a, b) (combinations2 l).
Proof.
  induction l as [|x l IH]; intros i j a b Hij Hi Hj; [destruct i; discriminate|]. destruct j as [|j]; [lia|]. cbn in *. apply in_or_app. destruct i as [|i].
  - left. cbn in Hi. assert (x = a) by congruence. subst. apply in_map_iff. exists b. split; auto. eapply nth_error_In; eauto.
  - right. apply (IH i j); auto. lia.
Qed.
Lemma rotate_nonzero q n : is_unit q -> n <> vzero -> 0 < vnorm (q_rotate q n).
Proof.
  intros Hu Hn. assert (Hd : vdot (q_rotate q n) (q_rotate q n) = vdot n n) by (rewrite q_rotate_dot; unfold is_unit in Hu; rewrite Hu; ring).
  assert (0 < vdot n n). { destruct n as [a b c]. unfold vdot; cbn. destruct (Req_dec a 0), (Req_dec b 0), (Req_dec c 0); try nra. exfalso. apply Hn. subst. reflexivity. }
  unfold vnorm. rewrite Hd. apply sqrt_lt_R0; auto.
Qed.
Lemma compute_contacts_complete e A B ts cs sA sB t ps p phi n : is_unit (b_q B) -> compute_contacts e A B ts = Some cs ->
  b_shape A = Some sA -> b_shape B = Some sB -> In (Z.of_nat t) ts -> world_triangle A sA t ps -> probe (e_params e) B sB ps p phi n ->
  In (mkContact (b_name B) (b_name A) p (v3_unit (q_rotate (b_q B) n)) phi) cs.
Proof.
  intros Hu H EA EB Ht (a0 & a1 & a2 & Et & ->) (x & Ex & -> & Hin & Hv & Hle & Hg & Hn). unfold compute_contacts in H. rewrite EA, EB in H. cbv zeta in H.
  match type of H with context [map_opt ?h ?l] => set (f := h) in H; destruct (map_opt f l) as [ls|] eqn:E; [|discriminate] end.
  apply some_eq in H. subst cs. destruct (map_opt_hit _ _ _ _ E Ht) as (l & El & Hl). apply in_concat. exists l. split; auto.
  unfold f in El. rewrite world_vertices_map, q_rotate_array_map, !map_map in El. rewrite (tri_corners_map_eq _ _ _ _ _ _ _ Et) in El.
  change (q_rotate (q_conj (b_q B)) (vsub (to_world A a0) (b_r B))) with (to_body B (to_world A a0)) in El.
  change (q_rotate (q_conj (b_q B)) (vsub (to_world A a1) (b_r B))) with (to_body B (to_world A a1)) in El.
  change (q_rotate (q_conj (b_q B)) (vsub (to_world A a2) (b_r B))) with (to_body B (to_world A a2)) in El.
  rewrite Ex in El. unfold contact_of_point in El. rewrite Hin, Hv, Hg in El. cbv zeta in El.
  destruct (Rleb_spec phi (p_envelope (e_params e))) as [_|]; [|contradiction].
  assert (Hpos := rotate_nonzero _ _ Hu Hn). destruct (Rltb_spec 0 (vnorm (q_rotate (b_q B) n))) as [_|]; [|contradiction].
  rewrite make_contact_unit in El by (apply unit_of_pos; auto). apply some_eq in El. subst l. left. reflexivity.
Qed.
Lemma in_triangle_hull p p0 p1 p2 : in_triangle p (p0, p1, p2) -> in_hull p [p0; p1; p2].
Proof.
  intros (a & b & c & Ha & Hb & Hc & Hs & ->). exists [a; b; c]. split; [reflexivity|]. split; [constructor; [auto|constructor; [auto|constructor; [auto|constructor]]]|]. split; [cbn; lra|].
  destruct p0, p1, p2. unfold vcomb, vadd, vscale, vzero; cbn. f_equal; ring.
Qed.
Lemma tri_corners_gather V T t p0 p1 p2 : tri_corners V T (Z.of_nat t) = Some (p0, p1, p2) ->
  exists el, nth_error (map tri_list T) t = Some el /\ gather V el = Some [p0; p1; p2].
Proof.
  unfold tri_corners. rewrite BvhProofs.py_get_nat. destruct (nth_error T t) as [[[i j] k]|] eqn:E; [|discriminate].
  intros H. exists (tri_list (i, j, k)). split; [rewrite nth_error_map, E; reflexivity|]. cbn [tri_list gather].
  destruct (py_get V i); [|discriminate]. destruct (py_get V j); [|discriminate]. destruct (py_get V k); [|discriminate]. congruence.
Qed.
Lemma update_bvh_fitted e e1 k b : engine_ready e -> update_bvh e = Some e1 -> nth_error (e_bodies e) k = Some b ->
  exists s tr N, nth_error (e_bodies e1) k = Some (with_bvh b tr) /\ b_shape b = Some s /\ (1 <= N)%Z /\
    bvh_reach (map tri_list (sh_T s)) (p_K (e_params e)) N tr (world_vertices b s) (p_envelope (e_params e)).
Proof.
  intros (HK & HB & _ & _) H Hk. unfold update_bvh in H. match type of H with context [map_opt ?h ?l] => set (f := h) in H; destruct (map_opt f l) as [bs|] eqn:E; [|discriminate] end.
  apply some_eq in H. subst e1. cbn [e_bodies set_bodies]. assert (F : Forall2 (fun b b' => f b = Some b') (e_bodies e) bs) by (apply BvhProofs.map_opt_inv; auto).
  destruct (Forall2_nth _ _ _ _ _ F Hk) as (b' & Hb' & Ef). rewrite Forall_forall in HB.
  destruct (HB b (nth_error_In _ _ Hk)) as ((s & tr & N & X & env & E1 & HV & HG & E2 & HN & HR) & _).
  unfold f in Ef. rewrite E1, E2 in Ef.
  destruct (C21_refit_succeeds _ _ _ _ _ _ (world_vertices b s) (p_envelope (e_params e)) HK HN HR (world_valid b s _ HV)) as (tr' & Er & HR').
  rewrite Er in Ef. exists s, tr', N. split; [congruence|]. auto.
Qed.

Lemma vnorm_sub_sym a b : vnorm (vsub b a) = vnorm (vsub a b).
Proof. unfold vnorm. f_equal. unfold vdot, vsub; cbn. ring. Qed.
(** geometry within the envelope: elements with points at most [env] apart are reported (K = 3 and K = 4, whose directions have length sqrt 3 < 2) *)
Lemma hull_slab d V e lo hi p : make_slab d V e = mkI (Fin lo) (Fin hi) -> in_hull p V -> lo + e <= vdot d p <= hi - e.
Proof.
  intros Em (ws & Hl & Hw & Hs & ->).
  assert (HV : V <> []) by (destruct V, ws; cbn in *; try discriminate; lra).
  destruct (make_slab_tight d V e HV) as (lo' & hi' & Em' & H1 & _). rewrite Em in Em'. injection Em' as <- <-.
  assert (G := vcomb_bounds d V (lo + e) (hi - e) H1 ws Hl Hw). rewrite Hs in G. lra.
Qed.
Theorem C22_close_reported : forall TA TB K NA NB A B XA XB env i j ela elb va vb pa pb,
  supported_K K -> (1 <= NA)%Z -> (1 <= NB)%Z ->
  bvh_reach TA K NA A XA env -> bvh_reach TB K NB B XB env ->
  nth_error TA i = Some ela -> nth_error TB j = Some elb -> gather XA ela = Some va -> gather XB elb = Some vb ->
  in_hull pa va -> in_hull pb vb -> vnorm (vsub pa pb) <= env ->
  exists r, traversal A B = Some r /\ In (Z.of_nat i, Z.of_nat j) r.
Proof.
  intros TA TB K NA NB A B XA XB env i j ela elb va vb pa pb HK HNA HNB RA RB Ei Ej Ga Gb Pa Pb Hd.
  destruct (C22_traversal_exact _ _ _ _ _ _ _ _ _ _ _ HK HNA HNB RA RB) as (r & E & _ & H). exists r; split; auto.
  apply H. pose proof (BvhProofs.nth_error_lt _ _ _ Ei). pose proof (BvhProofs.nth_error_lt _ _ _ Ej). split; [lia|]. split; [lia|].
  assert (exists D, get_direction_table K = Some D) as [D ED] by (destruct HK as [->| ->]; cbn; eauto).
  assert (Ea : kdop_make K va env = Some (map (fun d => make_slab d va env) D)) by (unfold kdop_make; rewrite ED; auto).
  assert (Eb : kdop_make K vb env = Some (map (fun d => make_slab d vb env) D)) by (unfold kdop_make; rewrite ED; auto).
  eexists. eexists. unfold elem_kdop. rewrite !BvhProofs.py_get_nat, Ei, Ej, Ga, Gb, Ea, Eb. split; [reflexivity|]. split; [reflexivity|].
  unfold kdop_overlap. rewrite !map_length, Nat.eqb_refl. f_equal.
  assert (HD : forall d, In d D -> - (2 * env) <= vdot d pa - vdot d pb <= 2 * env).
  { intros d Hin. assert (He : 0 <= env) by (eapply Rle_trans; [apply sqrt_pos|exact Hd]).
    assert (Hsq : vdot (vsub pa pb) (vsub pa pb) <= env * env). { rewrite <- vnorm_sqr. apply Rmult_le_compat; auto; apply sqrt_pos. }
    set (t := vdot d (vsub pa pb)). assert (Ht : vdot d pa - vdot d pb = t) by (unfold t, vdot, vsub; cbn; ring). rewrite Ht.
    assert (Hdd : vdot d d <= 3). { destruct HK as [-> | ->]; cbn in ED; injection ED as <-; cbn in Hin; repeat destruct Hin as [<-|Hin]; try destruct Hin; unfold vdot; cbn; lra. }
    assert (Hcs : t * t <= vdot d d * vdot (vsub pa pb) (vsub pa pb)).
    { unfold t. destruct d as [d1 d2 d3]. destruct (vsub pa pb) as [s1 s2 s3]. unfold vdot; cbn. pose proof (Rle_0_sqr (d1*s2-d2*s1)). pose proof (Rle_0_sqr (d1*s3-d3*s1)). pose proof (Rle_0_sqr (d2*s3-d3*s2)). unfold Rsqr in *. nra. }
    assert (Ht4 : t * t <= (2 * env) * (2 * env)). { assert (0 <= vdot (vsub pa pb) (vsub pa pb)) by apply vdot_self_nonneg. nra. }
    clear - Ht4 He. split; nra. }
  clear H ED Ea Eb. induction D as [|d D IH]; [reflexivity|]. cbn [map slabs_overlap].
  assert (HVa : va <> []) by (destruct Pa as (ws & Hl & _ & Hs & _); destruct va, ws; cbn in *; try discriminate; lra).
  assert (HVb : vb <> []) by (destruct Pb as (ws & Hl & _ & Hs & _); destruct vb, ws; cbn in *; try discriminate; lra).
  destruct (make_slab_tight d va env HVa) as (lo & hi & Em & _). destruct (make_slab_tight d vb env HVb) as (lo' & hi' & Em' & _).
  pose proof (hull_slab _ _ _ _ _ _ Em Pa) as Ba. pose proof (hull_slab _ _ _ _ _ _ Em' Pb) as Bb. pose proof (HD d (or_introl eq_refl)) as Bd.
  rewrite Em, Em'. unfold slab_disjoint. cbn [lower upper e_ltb]. destruct (Rltb_spec hi lo'); [lra|]. destruct (Rltb_spec hi' lo); [lra|]. cbn. apply IH. intros d' Hd'. apply HD. right; auto.
Qed.
Print Assumptions C22_close_reported.

(** * C130 *)
(** Of two different bodies of a ready engine, let a triangle of A and a triangle of B have points wA, wB of the world at
    most the envelope apart.  If A's triangle probes B's distance field at p, with distance phi and gradient n, then the detection reports a contact between
    A and B at p. *)
Theorem C130_detected e i j A B sA sB ta tb psA psB wA wB p phi n : engine_ready e -> NoDup (map b_name (e_bodies e)) ->
  i <> j -> nth_error (e_bodies e) i = Some A -> nth_error (e_bodies e) j = Some B -> b_shape A = Some sA -> b_shape B = Some sB ->
  world_triangle A sA ta psA -> world_triangle B sB tb psB -> in_triangle wA psA -> in_triangle wB psB -> vnorm (vsub wA wB) <= p_envelope (e_params e) ->
  probe (e_params e) B sB psA p phi n ->
  exists e1 c, run_collision_detection e = Some e1 /\ In c (e_contacts e1) /\ c_p c = p /\
    ((c_A c = b_name A /\ c_B c = b_name B) \/ (c_A c = b_name B /\ c_B c = b_name A)).
Proof.
  intros HR HND Hij HA HB EA EB HtA HtB HwA HwB Hclose Hp.
  destruct (cd_total e HR) as (e1 & E1 & _). exists e1. assert (E1' := E1). unfold run_collision_detection in E1.
  destruct (update_bvh e) as [e0|] eqn:E0; [|discriminate]. destruct (narrow_phase e0) as [ov|] eqn:EN; [|discriminate].
  destruct (contact_determination ov e0) as [e2|] eqn:E2; [|discriminate]. apply some_eq in E1. subst e1. cbn [e_contacts set_contacts].
  destruct (update_bvh_fitted _ _ _ _ HR E0 HA) as (sA' & trA & NA & HA0 & EA' & HNA & RA). assert (sA' = sA) by congruence. subst sA'.
  destruct (update_bvh_fitted _ _ _ _ HR E0 HB) as (sB' & trB & NB & HB0 & EB' & HNB & RB). assert (sB' = sB) by congruence. subst sB'.
  assert (EP : e_params e0 = e_params e). { unfold update_bvh in E0. destruct (map_opt _ _); [|discriminate]. apply some_eq in E0. subst e0. reflexivity. }
  assert (HK : supported_K (p_K (e_params e))) by (destruct HR; auto).
  assert (HuB : is_unit (b_q B)). { destruct HR as (_ & F & _). rewrite Forall_forall in F. destruct (F B (nth_error_In _ _ HB)) as (_ & Hu & _). auto. }
  assert (Hne : b_name A <> b_name B).
  { intros E. apply Hij. assert (Hi' : nth_error (map b_name (e_bodies e)) i = Some (b_name A)) by (rewrite nth_error_map, HA; reflexivity).
    assert (Hj' : nth_error (map b_name (e_bodies e)) j = Some (b_name A)) by (rewrite nth_error_map, HB, E; reflexivity).
    rewrite NoDup_nth_error in HND. apply HND; [apply nth_error_Some; congruence|congruence]. }
  set (c0 := mkContact (b_name B) (b_name A) p (v3_unit (q_rotate (b_q B) n)) phi).
  (* every contact joins two different bodies *)
  assert (Hdiff : forall c, In c (e_contacts e2) -> c_A c <> c_B c).
  { intros c Hc. assert (G := E2). unfold contact_determination in G. match type of G with context [map_opt ?h ?l] => set (f := h) in G; destruct (map_opt f l) as [ls|] eqn:E3; [|discriminate] end.
    apply some_eq in G. subst e2. cbn [e_contacts set_contacts] in Hc. apply in_concat in Hc as (l & Hl & Hc). destruct (map_opt_in _ _ _ _ E3 Hl) as ([[A' B'] rs] & Ho & Ef). unfold f in Ef.
    unfold narrow_phase in EN. match type of EN with context [map_opt ?h ?l] => set (f1 := h) in EN; destruct (map_opt f1 l) as [rs1|] eqn:E4; [|discriminate] end.
    apply some_eq in EN. subst ov. apply filter_In in Ho as [Ho _]. destruct (map_opt_in _ _ _ _ E4 Ho) as ([A2 B2] & HAB & E5). unfold f1 in E5. cbn [fst snd] in E5.
    destruct (b_bvh A2); [|discriminate]. destruct (b_bvh B2); [|discriminate]. destruct (traversal t t0); [|discriminate]. assert (A2 = A') by congruence. assert (B2 = B') by congruence. subst A2 B2. clear E5.
    apply combinations2_pos in HAB as (k & k' & Hkk & Hk & Hk').
    assert (HF : Forall2 bvh_only (e_bodies e) (e_bodies e0)). { destruct (update_bvh_total e HR) as (e0' & E0' & F & _). assert (e0' = e0) by congruence. subst. auto. }
    assert (HN0 : NoDup (map b_name (e_bodies e0))) by (rewrite (names_same _ _ HF); auto).
    assert (Hne' : b_name A' <> b_name B').
    { intros E. assert (k = k'); [|lia]. assert (H1 : nth_error (map b_name (e_bodies e0)) k = Some (b_name A')) by (rewrite nth_error_map, Hk; reflexivity).
      assert (H2 : nth_error (map b_name (e_bodies e0)) k' = Some (b_name A')) by (rewrite nth_error_map, Hk', E; reflexivity).
      rewrite NoDup_nth_error in HN0. apply HN0; [apply nth_error_Some; congruence|congruence]. }
    assert (HQ : forall k b, nth_error (e_bodies e0) k = Some b -> is_unit (b_q b)).
    { intros m b Hm. destruct (update_bvh_total e HR) as (e0' & E0' & _ & F & _). assert (e0' = e0) by congruence. subst. rewrite Forall_forall in F. destruct (F b (nth_error_In _ _ Hm)) as (_ & Hu & _). auto. }
    destruct (compute_contacts e0 A' B' _) as [c1|] eqn:C1; [|discriminate]. destruct (compute_contacts e0 B' A' _) as [c2|] eqn:C2; [|discriminate].
    apply some_eq in Ef. subst l. apply in_app_or in Hc as [Hc|Hc].
    - destruct (compute_contacts_sound _ _ _ _ _ _ (HQ _ _ Hk') C1 Hc) as (-> & -> & _). auto.
    - destruct (compute_contacts_sound _ _ _ _ _ _ (HQ _ _ Hk) C2 Hc) as (-> & -> & _). auto. }
  assert (Hc0 : In c0 (e_contacts e2)).
  { destruct HtA as (a0 & a1 & a2 & EtA & EpsA). destruct HtB as (b0 & b1 & b2 & EtB & EpsB).
    assert (WA : tri_corners (world_vertices A sA) (sh_T sA) (Z.of_nat ta) = Some (to_world A a0, to_world A a1, to_world A a2)) by (rewrite world_vertices_map; apply tri_corners_map_eq; auto).
    assert (WB : tri_corners (world_vertices B sB) (sh_T sB) (Z.of_nat tb) = Some (to_world B b0, to_world B b1, to_world B b2)) by (rewrite world_vertices_map; apply tri_corners_map_eq; auto).
    destruct (tri_corners_gather _ _ _ _ _ _ WA) as (elA & HelA & GA). destruct (tri_corners_gather _ _ _ _ _ _ WB) as (elB & HelB & GB).
    assert (hA : in_hull wA [to_world A a0; to_world A a1; to_world A a2]) by (apply in_triangle_hull; rewrite <- EpsA; auto).
    assert (hB : in_hull wB [to_world B b0; to_world B b1; to_world B b2]) by (apply in_triangle_hull; rewrite <- EpsB; auto).
    (* one pair of the narrow phase gives the contact *)
    assert (Pair : forall Xb Yb rs, In (Xb, Yb, rs) ov -> forall ls, map_opt (fun o : body * body * list (Z * Z) => let '((A, B), rs) := o in
        do c1 <- compute_contacts e0 A B (np_unique (map fst rs)); do c2 <- compute_contacts e0 B A (np_unique (map snd rs)); Some (c1 ++ c2)) ov = Some ls ->
        exists c1 c2, compute_contacts e0 Xb Yb (np_unique (map fst rs)) = Some c1 /\ compute_contacts e0 Yb Xb (np_unique (map snd rs)) = Some c2 /\ In (c1 ++ c2) ls).
    { intros Xb Yb rs Ho ls Els. destruct (map_opt_hit _ _ _ _ Els Ho) as (l & El & Hl). cbn beta iota in El.
      destruct (compute_contacts e0 Xb Yb _) as [c1|]; [|discriminate]. destruct (compute_contacts e0 Yb Xb _) as [c2|]; [|discriminate].
      apply some_eq in El. subst l. eauto. }
    assert (Hov : forall k k' X Y tX tY r, (k < k')%nat -> nth_error (e_bodies e0) k = Some (with_bvh X tX) -> nth_error (e_bodies e0) k' = Some (with_bvh Y tY) ->
        traversal tX tY = Some r -> r <> [] -> In (with_bvh X tX, with_bvh Y tY, r) ov).
    { intros k k' X Y tX tY r Hkk Hk Hk' Htr Hr. unfold narrow_phase in EN. match type of EN with context [map_opt ?h ?l] => set (f1 := h) in EN; destruct (map_opt f1 l) as [rs1|] eqn:E4; [|discriminate] end.
      apply some_eq in EN. subst ov. apply filter_In. destruct (map_opt_hit _ _ _ _ E4 (combinations2_has _ _ _ _ _ Hkk Hk Hk')) as (o & Eo & Ho). unfold f1 in Eo. cbn [fst snd b_bvh with_bvh] in Eo.
      rewrite Htr in Eo. apply some_eq in Eo. subst o. split; auto. cbn [snd]. destruct r; [contradiction|auto]. }
    unfold contact_determination in E2. match type of E2 with context [map_opt ?h ov] => destruct (map_opt h ov) as [ls|] eqn:E3; [|discriminate] end.
    apply some_eq in E2. subst e2. cbn [e_contacts set_contacts].
    assert (Fin : forall cs, compute_contacts e0 (with_bvh A trA) (with_bvh B trB) cs <> None -> In (Z.of_nat ta) cs -> forall l, compute_contacts e0 (with_bvh A trA) (with_bvh B trB) cs = Some l -> In c0 l).
    { intros cs _ Hin l El. apply (compute_contacts_complete e0 (with_bvh A trA) (with_bvh B trB) cs l sA sB ta psA p phi n); auto.
      - exists a0, a1, a2. split; auto.
      - rewrite EP. exact Hp. }
    destruct (Nat.lt_ge_cases i j) as [Hlt|Hge].
    - destruct (C22_close_reported _ _ _ _ _ _ _ _ _ _ _ _ _ _ _ _ _ _ HK HNA HNB RA RB HelA HelB GA GB hA hB Hclose) as (r & Er & Hr).
      assert (Hr0 : r <> []) by (intros ->; destruct Hr).
      destruct (Pair _ _ _ (Hov _ _ _ _ _ _ _ Hlt HA0 HB0 Er Hr0) _ eq_refl) as (c1 & c2 & C1 & C2 & Hin).
      apply in_concat. exists (c1 ++ c2). split; auto. apply in_or_app. left. apply (Fin (np_unique (map fst r))); auto; [congruence|].
      apply in_np_unique. apply in_map_iff. exists (Z.of_nat ta, Z.of_nat tb). auto.
    - assert (Hlt : (j < i)%nat) by lia.
      destruct (C22_close_reported _ _ _ _ _ _ _ _ _ _ _ _ _ _ _ _ _ _ HK HNB HNA RB RA HelB HelA GB GA hB hA ltac:(rewrite vnorm_sub_sym; exact Hclose)) as (r & Er & Hr).
      assert (Hr0 : r <> []) by (intros ->; destruct Hr).
      destruct (Pair _ _ _ (Hov _ _ _ _ _ _ _ Hlt HB0 HA0 Er Hr0) _ eq_refl) as (c1 & c2 & C1 & C2 & Hin).
      apply in_concat. exists (c1 ++ c2). split; auto. apply in_or_app. right. apply (Fin (np_unique (map snd r))); auto; [congruence|].
      apply in_np_unique. apply in_map_iff. exists (Z.of_nat tb, Z.of_nat ta). auto. }
  destruct (C53_no_duplicates (e_contacts e2) Hdiff) as (_ & Hkept & _). destruct (Hkept c0 Hc0) as (c & Hc & HD).
  exists c. split; auto. split; auto. split; [exact (proj2 HD)|]. destruct HD as [[[H1 H2]|[H1 H2]] _]; cbn in H1, H2; [right|left]; auto.
Qed.
(** Two unit tetrahedra in the same place, with the distance field x - 10 on a grid over [-2,2]^3 (so both are deep inside
    each other): the hypotheses hold for triangle 0 of one against triangle 0 of the other, so a contact is reported. *)
Definition d_grid : grid := mkG (mkV (-2) (-2) (-2)) (mkV 2 2 2) 2 2 2 (mkV 4 4 4) (Some [-12; -8; -12; -8; -12; -8; -12; -8]).
Definition d_shape : shape := mkShape [115%nat] w_V w_T d_grid 1 (mkV 1 1 1) vzero q_identity.
Definition d_body (tr : tree) (nm : name) (idx : nat) : body :=
  mkBody nm idx q_identity vzero vzero vzero 2 (mkV 1 2 3) (Some d_shape) false [] default_name (Some tr).
Definition d_engine (bs : list body) : engine := mkEngine bs [] [d_shape] [] [] library_init params_init true.
Lemma d_grid_of : grid_of (mkV (-2) (-2) (-2)) (mkV 2 2 2) 2 2 2 d_grid.
Proof.
  unfold grid_of. cbn [vx vy vz]. repeat match goal with |- _ /\ _ => split end; try lra.
  destruct (grid_make_some (mkV (-2) (-2) (-2)) (mkV 2 2 2) 2 2 2) as (g0 & E & H); cbn; try lra; try lia. exists g0. split; auto.
  unfold grid_make in E. destruct (any_lt _ _); [discriminate|]. cbn in E. injection E as <-. eexists. cbn. unfold d_grid. f_equal. apply vec3_eq; cbn; lra.
Qed.
Lemma d_values : node_values d_grid (fun i _ _ => 4 * IZR i - 12).
Proof.
  intros i j k (Hi & Hj & Hk). cbn in Hi, Hj, Hk. unfold get_node_value, get_linear_index. cbn [g_values g_I g_J d_grid].
  assert (Ci : (i = 0 \/ i = 1)%Z) by lia. assert (Cj : (j = 0 \/ j = 1)%Z) by lia. assert (Ck : (k = 0 \/ k = 1)%Z) by lia.
  destruct Ci as [-> | ->], Cj as [-> | ->], Ck as [-> | ->]; first [transitivity (Some (-12)); [reflexivity|apply f_equal; lra]|transitivity (Some (-8)); [reflexivity|apply f_equal; lra]].
Qed.
Lemma d_cell p : get_enclosing_cell_idx d_grid p = (0, 0, 0)%Z.
Proof.
  destruct (get_enclosing_cell_idx d_grid p) as [[i j] k] eqn:E. destruct (C24_enclosing_cell _ _ _ _ _ _ _ _ _ _ d_grid_of E) as [H _]. f_equal; [f_equal|]; lia.
Qed.
Lemma d_value p : get_value d_grid p = Some (vx p - 10).
Proof.
  rewrite (C25_trilinear_exact _ _ _ _ _ _ (-10) 1 0 0 0 0 0 0 p d_grid_of).
  - f_equal. unfold trilin. ring.
  - intros i j k H. rewrite (d_values i j k) by exact H. f_equal. unfold trilin, get_node_coord, vadd; cbn. lra.
Qed.
Lemma d_gradient p : get_gradient d_grid p = Some (mkV 1 0 0).
Proof.
  unfold get_gradient. rewrite d_cell. rewrite !(fun i j k => d_values i j k) by (unfold is_node; cbn; lia).
  destruct (Reqb_spec (vx (g_min d_grid)) 0) as [E|_]; [cbn in E; lra|]. destruct (Reqb_spec (vy (g_min d_grid)) 0) as [E|_]; [cbn in E; lra|].
  destruct (Reqb_spec (vz (g_min d_grid)) 0) as [E|_]; [cbn in E; lra|]. cbn [orb]. cbv zeta. f_equal. apply vec3_eq; cbn; field.
Qed.
Lemma to_world_id tr nm idx p : to_world (d_body tr nm idx) p = p.
Proof. unfold to_world, d_body. cbn [b_q b_r]. unfold q_rotate, q_identity, q_prod, q_conj. destruct p. apply vec3_eq; cbn; ring. Qed.
Lemma to_body_id tr nm idx p : to_body (d_body tr nm idx) p = p.
Proof. unfold to_body, d_body. cbn [b_q b_r]. unfold q_rotate, q_identity, q_prod, q_conj. destruct p. apply vec3_eq; cbn; ring. Qed.
Example C130_nonvacuous : exists e A B psA psB wA wB p phi n, engine_ready e /\ NoDup (map b_name (e_bodies e)) /\ vnorm (vsub wA wB) <= p_envelope (e_params e) /\ wA <> wB /\
  nth_error (e_bodies e) 0 = Some A /\ nth_error (e_bodies e) 1 = Some B /\ b_shape A = Some d_shape /\ b_shape B = Some d_shape /\
  world_triangle A d_shape 0 psA /\ world_triangle B d_shape 0 psB /\ in_triangle wA psA /\ in_triangle wB psB /\ probe (e_params e) B d_shape psA p phi n /\
  exists e1 c, run_collision_detection e = Some e1 /\ In c (e_contacts e1) /\ c_p c = p.
Proof.
  destruct w_tree as (tr & E). set (A := d_body tr [97%nat] 0). set (B := d_body tr [98%nat] 1). set (e := d_engine [A; B]).
  assert (HBd : forall nm idx, body_ready 3 (d_body tr nm idx)).
  { intros nm idx. split; [|split].
    - exists d_shape, tr, 255%Z, w_V, (1/10). cbn. split; [auto|]. split; [apply w_mesh|]. split.
      { exists (mkV (-2) (-2) (-2)), (mkV 2 2 2), 2%Z, 2%Z, 2%Z, (fun i _ _ => 4 * IZR i - 12). split; [apply d_grid_of|]. split; [apply d_values|]. cbn. lra. }
      split; [auto|]. split; [lia|]. apply reach_make; auto. apply w_mesh.
    - unfold is_unit, qdot; cbn. ring.
    - intros _. cbn. repeat split; lra. }
  assert (HR : engine_ready e). { unfold engine_ready. split; [left; reflexivity|]. split; [constructor; [apply HBd|constructor; [apply HBd|constructor]]|]. split; [apply Forall_nil|]. cbn. discriminate. }
  assert (HND : NoDup (map b_name (e_bodies e))). { cbn. constructor; [intros [H|[]]; discriminate|constructor; [intros []|constructor]]. }
  set (ps := (mkV 0 0 0, mkV 0 1 0, mkV 1 0 0)).
  assert (HT : forall nm idx, world_triangle (d_body tr nm idx) d_shape 0 ps).
  { intros nm idx. exists (mkV 0 0 0), (mkV 0 1 0), (mkV 1 0 0). split; [reflexivity|]. rewrite !to_world_id. reflexivity. }
  destruct (fw_point_total (get_gradient d_grid) (p_opt_tol params_init) (p_opt_iterations params_init) ps) as (x & Ex). { intros q. rewrite d_gradient. eauto. }
  assert (Hx := C54_stays_on_triangle _ _ _ _ _ Ex).
  assert (Hp : probe (e_params e) B d_shape ps x (vx x - 10) (mkV 1 0 0)).
  { unfold probe, ps. exists x. unfold B. rewrite !to_body_id, to_world_id. cbn [e_params e d_engine d_shape sh_grid].
    destruct Hx as (a & b & c & Ha & Hb & Hc & Hs & ->). cbn [vx vy vz vadd vscale]. split; [exact Ex|]. split; [reflexivity|]. split.
    { unfold grid_is_inside. cbn [g_min g_max d_grid vx vy vz vadd vscale]. repeat match goal with |- (if Rltb ?u ?v then _ else _) = _ => destruct (Rltb_spec u v); [exfalso; lra|] end. reflexivity. }
    split; [rewrite d_value; cbn; reflexivity|]. split; [cbn; lra|]. split; [apply d_gradient|]. intros H. injection H. lra. }
  assert (Hw : in_triangle (mkV 0 0 0) ps) by exact (corner_in ps 0).
  assert (Hw' : in_triangle (mkV (1/20) 0 0) ps). { exists (19/20), 0, (1/20). split; [lra|]. split; [lra|]. split; [lra|]. split; [lra|]. unfold ps, vadd, vscale; cbn. f_equal; lra. }
  assert (Henv : vnorm (vsub (mkV 0 0 0) (mkV (1/20) 0 0)) <= p_envelope (e_params e)).
  { unfold vnorm, vdot, vsub; cbn. replace ((0 - 1/20) * (0 - 1/20) + (0 - 0) * (0 - 0) + (0 - 0) * (0 - 0)) with ((1/20) * (1/20)) by field. rewrite sqrt_square; lra. }
  exists e, A, B, ps, ps, (mkV 0 0 0), (mkV (1/20) 0 0), x, (vx x - 10), (mkV 1 0 0).
  destruct (C130_detected e 0 1 A B d_shape d_shape 0 0 ps ps (mkV 0 0 0) (mkV (1/20) 0 0) x (vx x - 10) (mkV 1 0 0) HR HND (O_S 0) eq_refl eq_refl eq_refl eq_refl (HT _ _) (HT _ _) Hw Hw' Henv Hp) as (e1 & c & E1 & Hc & Ep & _).
  split; [auto|]. split; [auto|]. split; [auto|]. split; [intros Z; injection Z; lra|]. split; [reflexivity|]. split; [reflexivity|]. split; [reflexivity|]. split; [reflexivity|]. split; [apply HT|]. split; [apply HT|]. split; [auto|]. split; [auto|]. split; [exact Hp|].
  exists e1, c. auto.
Qed.
Print Assumptions C130_detected.
