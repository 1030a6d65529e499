(** Property theorems C18-C22: AABB, k-DOP, k-DOP BVH.  Vocabulary in BvhSpec; [aabb_*], [kdop_*],
    [make_bvh], [refit_bvh], [traversal] model the API functions. *)
From Verif Require Import Base BvhModel BvhSpec KdopProofs BvhProofs BvhRefit BvhTraverse.
From Coq Require Import Permutation.
Open Scope R_scope.

(** ** C18 *)
Theorem C18_create_tight : forall vs b, aabb_create_from_vertices vs = Some b ->
  (forall p, In p vs -> in_box p b) /\
  (exists p, In p vs /\ vx p = vx (bx_min b)) /\ (exists p, In p vs /\ vy p = vy (bx_min b)) /\ (exists p, In p vs /\ vz p = vz (bx_min b)) /\
  (exists p, In p vs /\ vx p = vx (bx_max b)) /\ (exists p, In p vs /\ vy p = vy (bx_max b)) /\ (exists p, In p vs /\ vz p = vz (bx_max b)).
Proof. exact create_bounds. Qed.
Print Assumptions C18_create_tight.
Theorem C18_create_total : forall vs, vs <> [] -> exists b, aabb_create_from_vertices vs = Some b /\ valid_box b.
Proof. intros [|a t] H; [contradiction|]. eexists; split; [reflexivity|]. apply (create_valid (a :: t)). reflexivity. Qed.
Print Assumptions C18_create_total.
Theorem C18_overlap_exact : forall a b d, valid_box a -> valid_box b -> 0 <= d ->
  (aabb_is_overlap a b d = true <-> exists p, in_box p (grow_box a d) /\ in_box p (grow_box b d)) /\
  aabb_is_overlap a b d = aabb_is_overlap b a d /\
  (forall d', d <= d' -> aabb_is_overlap a b d = true -> aabb_is_overlap a b d' = true).
Proof.
  intros a b d Ha Hb Hd. split; [|split].
  - rewrite overlap_le. apply box_meet; apply grow_valid; auto.
  - apply eq_true_iff_eq. rewrite !overlap_le. tauto.
  - intros d' Hd'. rewrite !overlap_le. unfold v_le, grow_box; cbn. intuition lra.
Qed.
Print Assumptions C18_overlap_exact.
Theorem C18_no_overlap_no_common_point : forall va vb a b,
  aabb_create_from_vertices va = Some a -> aabb_create_from_vertices vb = Some b ->
  aabb_is_overlap a b 0 = false -> forall p, In p va -> ~ In p vb.
Proof.
  intros va vb a b Ea Eb O p Pa Pb. destruct (create_bounds _ _ Ea) as [Ha _]. destruct (create_bounds _ _ Eb) as [Hb _].
  assert (aabb_is_overlap a b 0 = true); [|congruence]. apply overlap_le.
  destruct (Ha p Pa), (Hb p Pb). unfold v_le, grow_box in *; cbn; intuition lra.
Qed.
Print Assumptions C18_no_overlap_no_common_point.
Example C18_nonvacuous : exists a b,
  aabb_create_from_vertices [mkV 0 0 0; mkV 1 1 1; mkV 1 0 0] = Some a /\
  aabb_create_from_vertices [mkV 2 0 0; mkV 3 1 1] = Some b /\ valid_box a /\ valid_box b /\
  aabb_is_overlap a b 0 = false /\ aabb_is_overlap a b 1 = true.
Proof.
  do 2 eexists. split; [reflexivity|]. split; [reflexivity|]. cbn. unfold vmax2, vmin2; cbn.
  repeat match goal with |- context [Rmax ?x ?y] => (rewrite (Rmax_left x y) by lra) || (rewrite (Rmax_right x y) by lra)
                       | |- context [Rmin ?x ?y] => (rewrite (Rmin_left x y) by lra) || (rewrite (Rmin_right x y) by lra) end.
  assert (V1 : valid_box (mkAABB (mkV 0 0 0) (mkV 1 1 1))) by (unfold valid_box, v_le; cbn; lra).
  assert (V2 : valid_box (mkAABB (mkV 2 0 0) (mkV 3 1 1))) by (unfold valid_box, v_le; cbn; lra).
  repeat split; try apply V1; try apply V2.
  - match goal with |- ?x = false => destruct x eqn:E; auto end. apply overlap_le in E. unfold v_le, grow_box in E; cbn in E. lra.
  - apply overlap_le. unfold v_le, grow_box; cbn. lra.
Qed.

(** ** C19 *)
Theorem C19_make_tight : forall K D V e A, get_direction_table K = Some D -> kdop_make K V e = Some A -> V <> [] ->
  Forall2 (fun d i => exists lo hi, i = mkI (Fin lo) (Fin hi) /\
     (forall v, In v V -> lo + e <= vdot d v <= hi - e) /\
     (exists v, In v V /\ lo = vdot d v - e) /\ (exists v, In v V /\ hi = vdot d v + e)) D A.
Proof.
  intros K D V e A ED EA HV. unfold kdop_make in EA. rewrite ED in EA. injection EA as <-. clear ED.
  induction D as [|d D IH]; cbn; constructor; auto. apply make_slab_tight; auto.
Qed.
Print Assumptions C19_make_tight.
Theorem C19_make_supported : forall K V e, (exists A, kdop_make K V e = Some A) <-> supported_K K.
Proof.
  intros K V e. unfold kdop_make, supported_K. split.
  - intros [A H]. destruct K as [|[|[|[|[|K]]]]]; cbn in H; try discriminate; auto.
  - intros [->| ->]; cbn; eauto.
Qed.
Print Assumptions C19_make_supported.
Theorem C19_union_least : forall A B,
  (length A = length B -> exists U, kdop_union A B = Some U /\ kdop_sub A U /\ kdop_sub B U /\
     forall W, kdop_sub A W -> kdop_sub B W -> kdop_sub U W) /\
  (length A <> length B -> kdop_union A B = None).
Proof.
  intros A B. unfold kdop_union. split; intros H.
  - rewrite H, Nat.eqb_refl. eexists; split; [reflexivity|]. destruct (slabs_union_ub A B H). repeat split; auto.
    intros W; apply slabs_union_lub.
  - destruct (Nat.eqb_spec (length A) (length B)); [contradiction|reflexivity].
Qed.
Print Assumptions C19_union_least.
Theorem C19_overlap : forall A B,
  (length A <> length B -> kdop_overlap A B = None) /\
  (length A = length B -> exists o, kdop_overlap A B = Some o /\ kdop_overlap B A = Some o /\
    (o = true <-> forall k a b, nth_error A k = Some a -> nth_error B k = Some b -> e_le (lower b) (upper a) /\ e_le (lower a) (upper b)) /\
    (forall A' B', kdop_sub A A' -> kdop_sub B B' -> o = true -> kdop_overlap A' B' = Some true) /\
    (forall D p, in_kdop D p A -> in_kdop D p B -> o = true)).
Proof.
  intros A B. unfold kdop_overlap. split; intros H.
  - destruct (Nat.eqb_spec (length A) (length B)); [contradiction|reflexivity].
  - rewrite H, Nat.eqb_refl. exists (slabs_overlap A B). rewrite (slabs_overlap_sym B A). split; [reflexivity|]. split; [reflexivity|].
    split; [apply slabs_overlap_iff|]. split.
    + intros A' B' SA SB O. rewrite <- (kdop_sub_length _ _ SA), <- (kdop_sub_length _ _ SB), H, Nat.eqb_refl.
      f_equal. eapply slabs_overlap_mono; eauto.
    + intros D p. apply slabs_overlap_common.
Qed.
Print Assumptions C19_overlap.
(** a slab with both bounds finite and ordered is an interval of numbers, and two such slabs pass the
    test iff they share a number *)
Theorem C19_overlap_slabs_share_a_number : forall a b la ua lb ub,
  a = mkI (Fin la) (Fin ua) -> b = mkI (Fin lb) (Fin ub) -> la <= ua -> lb <= ub ->
  (kdop_overlap [a] [b] = Some true <-> exists x, in_slab x a /\ in_slab x b).
Proof.
  intros a b la ua lb ub -> -> Ha Hb. unfold kdop_overlap; cbn [length Nat.eqb]. cbn [slabs_overlap].
  destruct (slab_disjoint _ _) eqn:E; [|apply slab_disjoint_false in E]; cbn in *.
  - split; [discriminate|]. intros (x & [H1 H2] & [H3 H4]); cbn in *. exfalso.
    assert (slab_disjoint (mkI (Fin la) (Fin ua)) (mkI (Fin lb) (Fin ub)) = false); [|congruence].
    apply slab_disjoint_false; cbn; lra.
  - split; [|reflexivity]. intros _. exists (Rmax la lb). unfold in_slab; cbn.
    split; split; auto using Rmax_l, Rmax_r; apply Rmax_lub; lra.
Qed.
Print Assumptions C19_overlap_slabs_share_a_number.
Lemma vcomb_bounds d V lo hi : (forall v, In v V -> lo <= vdot d v <= hi) ->
  forall ws, length ws = length V -> Forall (fun w => 0 <= w) ws -> wsum ws * lo <= vdot d (vcomb ws V) <= wsum ws * hi.
Proof.
  induction V as [|v V IH]; intros H [|w ws] L F; cbn in *; try lia; [unfold vdot; cbn; lra|].
  inversion F; subst. assert (G := IH (fun x Hx => H x (or_intror Hx)) ws ltac:(lia) H3). pose proof (H v (or_introl eq_refl)).
  replace (vdot d (vadd (vscale w v) (vcomb ws V))) with (w * vdot d v + vdot d (vcomb ws V)) by (unfold vdot; cbn; ring).
  assert (w * lo <= w * vdot d v <= w * hi) by (split; apply Rmult_le_compat_l; lra). lra.
Qed.
Theorem C19_make_encloses_hull : forall K D V e A p, get_direction_table K = Some D -> kdop_make K V e = Some A -> 0 <= e ->
  in_hull p V -> in_kdop D p A.
Proof.
  intros K D V e A p ED EA He (ws & Hl & Hw & Hs & ->). unfold kdop_make in EA. rewrite ED in EA. injection EA as <-. clear ED.
  assert (HV : V <> []) by (destruct V, ws; cbn in *; try discriminate; lra).
  unfold in_kdop. induction D as [|d D IH]; cbn; constructor; auto.
  destruct (make_slab_tight d V e HV) as (lo & hi & Em & H1 & _). rewrite Em.
  assert (G := vcomb_bounds d V (lo + e) (hi - e) H1 ws Hl Hw). rewrite Hs in G. unfold in_slab; cbn. lra.
Qed.
Print Assumptions C19_make_encloses_hull.
Example C19_nonvacuous : exists A, kdop_make 3 [mkV 0 0 0; mkV 2 1 0] (1/2) = Some A /\
  in_hull (mkV 1 (1/2) 0) [mkV 0 0 0; mkV 2 1 0].
Proof.
  eexists; split; [reflexivity|]. exists [1/2; 1/2]. repeat split; auto; try (cbn; lra).
  - repeat constructor; lra.
  - apply vec3_eq; cbn; lra.
Qed.

(** ** C20 *)
Theorem C20_make_bvh_shape : forall V T K N env, supported_K K -> valid_mesh V T -> (1 <= N)%Z ->
  exists tr, make_bvh V T K N env = Some tr /\ bvh_shape N (length T) tr.
Proof.
  intros V T K N env HK HT HN. destruct (make_bvh_ok V T K N env HK HT HN) as (tr & ts & E & (Sh & _) & Lv & _).
  exists tr; split; auto. exists ts; auto.
Qed.
Print Assumptions C20_make_bvh_shape.
(** what [bvh_shape] means for elements and indices *)
Theorem C20_each_element_in_exactly_one_leaf : forall N M tr, bvh_shape N M tr ->
  exists ts, Forall2 (chunk_shape N) (tr_chunks tr) ts /\
    (forall e, (0 <= e < Z.of_nat M)%Z <-> In e (flat_map leaves ts)) /\ NoDup (flat_map leaves ts).
Proof.
  intros N M tr (ts & Sh & Lv). exists ts. rewrite Lv. split; auto. split; [|apply NoDup_zseq].
  intros e. rewrite in_zseq. lia.
Qed.
Print Assumptions C20_each_element_in_exactly_one_leaf.
Theorem C20_indices_in_range : forall N st t, chunk_shape N st t ->
  exists ix, repr (st_nodes st) 0 t ix /\ (forall j, In j ix -> (Z.of_nat j < N)%Z) /\ length ix = bsize t.
Proof.
  intros N st t (Hl & ix & R & ND & Hin & _). exists ix. split; auto. split; [|eapply repr_size; eauto].
  intros j Hj. pose proof (repr_in_range _ _ _ _ R j Hj). lia.
Qed.
Print Assumptions C20_indices_in_range.
(** the first component of the stored height pair is the height of the tree *)
Theorem C20_height : forall V T K N env tr, supported_K K -> valid_mesh V T -> (1 <= N)%Z -> make_bvh V T K N env = Some tr ->
  exists ts, Forall2 (chunk_shape N) (tr_chunks tr) ts /\ Forall2 (fun st t => fst (st_height st) = bheight t) (tr_chunks tr) ts.
Proof.
  intros V T K N env tr HK HT HN E. destruct (make_bvh_ok V T K N env HK HT HN) as (tr' & ts & E' & (Sh & _) & _ & H).
  rewrite E in E'. injection E' as <-. exists ts; auto.
Qed.
Print Assumptions C20_height.
Definition ex_V : list vec3 := [mkV 0 0 0; mkV 1 0 0; mkV 0 1 0; mkV 5 5 5; mkV 6 5 5; mkV 5 6 5].
Definition ex_T : list (list Z) := [[0; 1; 2]; [3; 4; 5]; [1; 2; 3]; [2; 3; 4]; [0; 4; 5]]%Z.
Example C20_nonvacuous : valid_mesh ex_V ex_T /\ supported_K 3 /\ (1 <= 4)%Z /\ length ex_T = 5%nat.
Proof.
  split; [|split; [left; reflexivity|split; [lia|reflexivity]]]. intros el H. cbn in H.
  repeat match goal with H : _ \/ _ |- _ => destruct H as [<-|H] | H : False |- _ => destruct H end; eexists; reflexivity.
Qed.

(** ** C21 *)
Lemma reach_ok T K N tr X env : supported_K K -> (1 <= N)%Z -> bvh_reach T K N tr X env ->
  exists ts, bvh_ok X T K env N ts tr /\ flat_map leaves ts = zseq 0 (length T) /\ valid_mesh X T.
Proof.
  intros HK HN. induction 1 as [X env tr HX E|tr X env V env' tr' R (ts & Ok & Lv & HX) HV E].
  - destruct (make_bvh_ok X T K N env HK HX HN) as (tr' & ts & E' & Ok & Lv & _). rewrite E in E'; injection E' as <-. eauto.
  - destruct Ok as (Sh & I & _). destruct (refit_bvh_ok V T K env' HK HV N ts tr Sh I) as (tr2 & E2 & Ok2 & _).
    rewrite E in E2; injection E2 as <-. eauto.
Qed.
Theorem C21_refit_bounds : forall T K N tr X env, supported_K K -> (1 <= N)%Z -> bvh_reach T K N tr X env ->
  bvh_shape N (length T) tr /\
  Forall (chunk_fitted X T K env) (tr_chunks tr) /\
  (exists root, tr_root tr = Some root /\ forall st j t ix n v, In st (tr_chunks tr) -> repr (st_nodes st) j t ix ->
     nth_error (st_nodes st) j = Some n -> n_volume n = Some v -> kdop_sub v root).
Proof.
  intros T K N tr X env HK HN R. destruct (reach_ok T K N tr X env HK HN R) as (ts & (Sh & I & F & root & Er & Lr & Rr) & Lv & HX).
  split; [exists ts; auto|].
  assert (CF : Forall (chunk_fitted X T K env) (tr_chunks tr)).
  { eapply Forall_impl; [|exact F]. intros st [Ft W]. apply fitted_chunk; auto. }
  split; auto. exists root; split; auto. intros st j t ix n v Hst Rp En Ev.
  (* node j lies in the chunk's tree *)
  assert (G : exists t0, chunk_shape N st t0 /\ exists v0, tvol X T K env t0 = Some v0 /\ kdop_sub v0 root).
  { clear - Sh Rr Hst. induction Sh as [|s t sts ts H1 H2 IH]; [contradiction|]. inversion Rr; subst.
    destruct Hst as [->|]; [exists t; auto|auto]. }
  destruct G as (t0 & (_ & ix0 & R0 & ND & Hin & Und) & v0 & E0 & S0).
  rewrite Forall_forall in CF, F. destruct (CF st Hst 0%nat t0 ix0 R0) as (n0 & v0' & En0 & Ev0 & _ & Sub).
  destruct (F st Hst) as [Ft W]. destruct (Ft 0%nat t0 ix0) as (m & Em & Evm); [lia|auto|]. rewrite En0 in Em; injection Em as <-.
  assert (v0' = v0) by congruence. subst v0'.
  destruct (in_dec Nat.eq_dec j ix0) as [Hj|Hj].
  - destruct (Sub j n Hj En) as (vd & Evd & Sd). assert (vd = v) by congruence. subst. eapply kdop_sub_trans; eauto.
  - pose proof (repr_not_undefined _ _ _ _ _ Rp En). rewrite (Und j n En Hj) in H. discriminate.
Qed.
Print Assumptions C21_refit_bounds.
Theorem C21_refit_succeeds : forall T K N tr X env V env', supported_K K -> (1 <= N)%Z -> bvh_reach T K N tr X env -> valid_mesh V T ->
  exists tr', refit_bvh V T tr K env' = Some tr' /\ bvh_reach T K N tr' V env'.
Proof.
  intros T K N tr X env V env' HK HN R HV. destruct (reach_ok T K N tr X env HK HN R) as (ts & (Sh & I & _) & Lv & HX).
  destruct (refit_bvh_ok V T K env' HK HV N ts tr Sh I) as (tr' & E & _). exists tr'; split; auto. eapply reach_refit; eauto.
Qed.
Print Assumptions C21_refit_succeeds.
Example C21_nonvacuous : exists tr tr', bvh_reach ex_T 3 4 tr ex_V 0 /\ bvh_reach ex_T 3 4 tr' (map (vadd (mkV 1 0 0)) ex_V) (1/10).
Proof.
  destruct C20_nonvacuous as (HM & HK & HN & _). destruct (C20_make_bvh_shape ex_V ex_T 3 4 0 HK HM HN) as (tr & E & _).
  assert (R : bvh_reach ex_T 3 4 tr ex_V 0) by (apply reach_make; auto).
  assert (HM' : valid_mesh (map (vadd (mkV 1 0 0)) ex_V) ex_T).
  { intros el H. cbn in H. repeat match goal with H : _ \/ _ |- _ => destruct H as [<-|H] | H : False |- _ => destruct H end; eexists; reflexivity. }
  destruct (C21_refit_succeeds _ _ _ _ _ _ _ (1/10) HK HN R HM') as (tr' & _ & R'). exists tr, tr'; auto.
Qed.

(** ** C22 *)
Theorem C22_traversal_exact : forall TA TB K NA NB A B XA XB envA envB,
  supported_K K -> (1 <= NA)%Z -> (1 <= NB)%Z ->
  bvh_reach TA K NA A XA envA -> bvh_reach TB K NB B XB envB ->
  exists r, traversal A B = Some r /\ NoDup r /\
    forall i j, In (i, j) r <->
      (0 <= i < Z.of_nat (length TA))%Z /\ (0 <= j < Z.of_nat (length TB))%Z /\
      exists a b, elem_kdop XA TA K envA i = Some a /\ elem_kdop XB TB K envB j = Some b /\ kdop_overlap a b = Some true.
Proof.
  intros TA TB K NA NB A B XA XB envA envB HK HNA HNB RA RB.
  destruct (reach_ok _ _ _ _ _ _ HK HNA RA) as (tsA & OkA & LvA & HA).
  destruct (reach_ok _ _ _ _ _ _ HK HNB RB) as (tsB & OkB & LvB & HB).
  destruct (traversal_ok XA XB TA TB K envA envB HK HA HB NA NB tsA tsB A B OkA OkB) as (r & E & P).
  rewrite LvA, LvB in P. exists r. split; auto. split.
  - apply (Permutation_NoDup (Permutation_sym P)). apply NoDup_filter. apply NoDup_list_prod; apply NoDup_zseq.
  - intros i j. transitivity (In (i, j) (filter (ov XA XB TA TB K envA envB) (list_prod (zseq 0 (length TA)) (zseq 0 (length TB))))).
    { split; apply Permutation_in; auto using Permutation_sym. }
    rewrite filter_In, in_prod_iff, !in_zseq. unfold ov; cbn [fst snd]. split.
    + intros [[H1 H2] H3]. destruct (elem_kdop XA TA K envA i) as [a|]; [|discriminate]. destruct (elem_kdop XB TB K envB j) as [b|]; [|discriminate].
      destruct (kdop_overlap a b) as [[|]|] eqn:O; try discriminate. repeat split; try lia. exists a, b; auto.
    + intros (H1 & H2 & a & b & Ea & Eb & O). rewrite Ea, Eb, O. repeat split; auto; lia.
Qed.
Print Assumptions C22_traversal_exact.
(** conservative: elements whose convex hulls share a point are reported *)
Theorem C22_common_point_reported : forall TA TB K NA NB A B XA XB envA envB i j ela elb va vb p,
  supported_K K -> (1 <= NA)%Z -> (1 <= NB)%Z -> 0 <= envA -> 0 <= envB ->
  bvh_reach TA K NA A XA envA -> bvh_reach TB K NB B XB envB ->
  nth_error TA i = Some ela -> nth_error TB j = Some elb -> gather XA ela = Some va -> gather XB elb = Some vb ->
  in_hull p va -> in_hull p vb ->
  exists r, traversal A B = Some r /\ In (Z.of_nat i, Z.of_nat j) r.
Proof.
  intros TA TB K NA NB A B XA XB envA envB i j ela elb va vb p HK HNA HNB HeA HeB RA RB Ei Ej Ga Gb Pa Pb.
  destruct (C22_traversal_exact _ _ _ _ _ _ _ _ _ _ _ HK HNA HNB RA RB) as (r & E & _ & H). exists r; split; auto.
  apply H. pose proof (nth_error_lt _ _ _ Ei). pose proof (nth_error_lt _ _ _ Ej). split; [lia|]. split; [lia|].
  assert (exists D, get_direction_table K = Some D) as [D ED] by (destruct HK as [->| ->]; cbn; eauto).
  assert (exists a, kdop_make K va envA = Some a) as [a Ea] by (unfold kdop_make; rewrite ED; eauto).
  assert (exists b, kdop_make K vb envB = Some b) as [b Eb] by (unfold kdop_make; rewrite ED; eauto).
  exists a, b. unfold elem_kdop. rewrite !py_get_nat, Ei, Ej, Ga, Gb, Ea, Eb. repeat split; auto.
  unfold kdop_overlap. rewrite (kdop_make_length _ _ _ _ Ea), (kdop_make_length _ _ _ _ Eb), Nat.eqb_refl. f_equal.
  apply slabs_overlap_common with D p; eapply C19_make_encloses_hull; eauto.
Qed.
Print Assumptions C22_common_point_reported.
Example C22_nonvacuous : exists tr, bvh_reach ex_T 3 4 tr ex_V 0 /\ gather ex_V [1;2;3]%Z = Some [mkV 1 0 0; mkV 0 1 0; mkV 5 5 5] /\
  in_hull (mkV 1 0 0) [mkV 1 0 0; mkV 0 1 0; mkV 5 5 5] /\ in_hull (mkV 1 0 0) [mkV 0 0 0; mkV 1 0 0; mkV 0 1 0].
Proof.
  destruct C21_nonvacuous as (tr & _ & R & _). exists tr. split; auto. split; [reflexivity|]. split.
  - exists [1; 0; 0]. repeat split; auto; try (cbn; lra); [repeat constructor; lra|apply vec3_eq; cbn; lra].
  - exists [0; 1; 0]. repeat split; auto; try (cbn; lra); [repeat constructor; lra|apply vec3_eq; cbn; lra].
Qed.
