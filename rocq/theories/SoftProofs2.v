(** Proofs about SoftModel: the global mass matrix and the contact Jacobian. *)
From Verif Require Import Base VecModel VecProofs SolverModel SolverProofs ProxModel RigidTypes StepModel ConProofs ConProofs2 MechModel FemModel FemSpec FemProofs FemProofs2 SoftModel SoftSpec SoftProofs.
Open Scope R_scope.

(** ** block structure of the mass matrix *)
Lemma assembly_tsum T A x n : tsum n (flat x) (assembly_coo T A) = flat (prod_mat_vec T A x) n.
Proof.
  unfold assembly_coo. fold (lut_triplets (assembly_lut T A)).
  assert (E : assembly_lut T A = fold_left (fun l (p : nat * nat * mat3) => let '(i, j, M) := p in lut_add l (i, j) M) (contribs T A) []).
  { unfold assembly_lut. apply (fold_contribs (fun l i j M => lut_add l (i, j) M)). }
  rewrite E, lut_fold_tsum. unfold flat. rewrite prod_csum. unfold tsum, lut_triplets. cbn [map concat fold_right]. ring.
Qed.
Lemma assembly_range N T A : valid_mesh N T -> Forall (fun t : triplet => let '(r, c, _) := t in (r < 3 * N /\ c < 3 * N)%nat) (assembly_coo T A).
Proof.
  intros HT. unfold assembly_coo. fold (lut_triplets (assembly_lut T A)).
  assert (E : assembly_lut T A = fold_left (fun l (p : nat * nat * mat3) => let '(i, j, M) := p in lut_add l (i, j) M) (contribs T A) []).
  { unfold assembly_lut. apply (fold_contribs (fun l i j M => lut_add l (i, j) M)). }
  unfold lut_triplets. apply Forall_forall. intros [[r c] d] H. apply in_concat in H. destruct H as (b & H1 & H2). apply in_map_iff in H1.
  destruct H1 as ([k B] & Eb & H1). rewrite E in H1. pose proof (lut_fold_keys N _ [] (contribs_valid N T A HT) (fun k A HH => match HH with end) k B H1) as [K1 K2].
  subst b. cbn [fst snd] in H2. unfold block_triplets in H2. cbn [In] in H2.
  repeat (destruct H2 as [H2|H2]; [injection H2 as <- <- _; lia|]). destruct H2.
Qed.
Lemma flat_shift v o j : flat v (j + 3 * o)%nat = flat (fun i => v (o + i)%nat) j.
Proof. unfold flat. replace (j + 3 * o)%nat with (j + o * 3)%nat by lia. rewrite Nat.div_add, Nat.mod_add by lia. do 2 f_equal. lia. Qed.
Lemma shift_tsum o v l n : tsum (n + 3 * o) (flat v) (shift_triplets o l) = tsum n (flat (fun i => v (o + i)%nat)) l.
Proof.
  induction l as [|[[r c] d] l IH]; [reflexivity|]. unfold tsum in *. cbn [shift_triplets map fold_right] in *. rewrite flat_shift.
  change (map _ l) with (shift_triplets o l). rewrite IH. destruct (Nat.eqb_spec (r + 3 * o) (n + 3 * o)); destruct (Nat.eqb_spec r n); try lia; reflexivity.
Qed.
Lemma shift_range lo hi l : Forall (fun t : triplet => let '(r, c, _) := t in (r < 3 * hi /\ c < 3 * hi)%nat) l ->
  Forall (fun t : triplet => let '(r, c, _) := t in (3 * lo <= r < 3 * (lo + hi) /\ 3 * lo <= c < 3 * (lo + hi))%nat) (shift_triplets lo l).
Proof. intros H. unfold shift_triplets. apply Forall_map. eapply Forall_impl; [|exact H]. intros [[r c] d] HH. cbn beta iota in *. lia. Qed.
Definition body_triplets (b : sbody) : option (list triplet) := match s_M b with None => None | Some M => Some (shift_triplets (s_offset b) (assembly_coo (s_T b) M)) end.
Lemma blocks_tsum bs : forall s N ls v, layout bs s N -> forallb ready bs = true -> Forall body_ok bs -> map_all body_triplets bs = Some ls ->
  Forall (fun t : triplet => let '(r, c, _) := t in (3 * s <= r < 3 * N /\ c < 3 * N)%nat) (concat ls) /\
  forall b M n, In b bs -> s_M b = Some M -> (n < 3 * s_n b)%nat -> tsum (n + 3 * s_offset b) (flat v) (concat ls) = flat (prod_mat_vec (s_T b) M (view v b)) n.
Proof.
  induction bs as [|a bs IH]; intros s N ls v HL HR HB HM; cbn [map_all] in HM; [injection HM as <-; split; [constructor|intros b M n []]|].
  cbn [layout] in HL. cbn [forallb] in HR. apply andb_prop in HR as [R1 R2]. rewrite R1 in HL. destruct HL as [L1 L2]. inversion HB as [|? ? Ba Bbs]; subst.
  destruct (body_triplets a) as [la|] eqn:Ea; [|discriminate]. destruct (map_all body_triplets bs) as [ls'|] eqn:Els; [|discriminate]. injection HM as <-. cbn [concat].
  destruct (IH _ _ ls' v L2 R2 Bbs eq_refl) as [P1 P2]. unfold body_triplets in Ea. destruct (s_M a) as [Ma|] eqn:EM; [|discriminate]. injection Ea as <-.
  pose proof (shift_range (s_offset a) (s_n a) _ (assembly_range (s_n a) (s_T a) Ma (bo_mesh a Ba))) as SR. pose proof (layout_le _ _ _ L2) as LE. split.
  - apply Forall_app. split; [eapply Forall_impl; [|exact SR]|eapply Forall_impl; [|exact P1]]; intros [[r c] d] HH; cbn beta iota in *; lia.
  - intros b M n [<-|Hb] HM Hn; rewrite tsum_app.
    + rewrite (tsum_out _ _ (concat ls')). 2:{ eapply Forall_impl; [|exact P1]. intros [[r c] d] HH. cbn beta iota in *. lia. }
      rewrite shift_tsum, assembly_tsum, Rplus_0_r. replace M with Ma by congruence. reflexivity.
    + destruct (layout_range _ _ _ L2 R2 b Hb). rewrite (tsum_out _ _ (shift_triplets _ _)). 2:{ eapply Forall_impl; [|exact SR]. intros [[r c] d] HH. cbn beta iota in *. lia. }
      rewrite Rplus_0_l. apply P2; assumption.
Qed.
Lemma mass_at e M v b Mb i : soft_ok e -> forallb ready (sg_bodies e) = true -> soft_mass_matrix e = Some M -> In b (sg_bodies e) -> s_M b = Some Mb -> (i < s_n b)%nat ->
  unflat (mdotv (3 * sg_N e) M (flat v)) (s_offset b + i)%nat = prod_mat_vec (s_T b) Mb (view v b) i.
Proof.
  intros HO HR HM Hb HMb Hi. unfold soft_mass_matrix, soft_mass_triplets in HM. fold body_triplets in HM. destruct (map_all body_triplets (sg_bodies e)) as [ls|] eqn:E; [|discriminate]. injection HM as <-.
  destruct (blocks_tsum _ _ _ _ v (so_layout e HO) HR (so_bodies e HO) E) as [P1 P2].
  assert (D : forall k, mdotv (3 * sg_N e) (csr (concat ls)) (flat v) k = tsum k (flat v) (concat ls)).
  { intros k. apply csr_dot. eapply Forall_impl; [|exact P1]. intros [[r c] d] HH. cbn beta iota in *. lia. }
  unfold unflat. rewrite !D. rewrite <- (unflat_flat (prod_mat_vec (s_T b) Mb (view v b)) i). unfold unflat.
  rewrite <- !(P2 b Mb _ Hb HMb) by lia. f_equal; f_equal; lia.
Qed.
Lemma mass_defined e M b : soft_mass_matrix e = Some M -> In b (sg_bodies e) -> exists Mb, s_M b = Some Mb.
Proof.
  unfold soft_mass_matrix, soft_mass_triplets. fold body_triplets. intros H Hb. destruct (map_all body_triplets (sg_bodies e)) as [ls|] eqn:E; [|discriminate]. clear H. revert ls E.
  induction (sg_bodies e) as [|a bs IH]; intros ls E; [destruct Hb|]. cbn [map_all] in E. destruct (body_triplets a) eqn:Ea; [|discriminate]. destruct (map_all body_triplets bs) eqn:Eb; [|discriminate].
  destruct Hb as [<-|Hb]; [unfold body_triplets in Ea; destruct (s_M a); [eauto|discriminate]|eapply IH; [exact Hb|reflexivity]].
Qed.

(** ** the inverse *)
Lemma inverse_l n M W x i : is_inverse n M W -> (i < n)%nat -> mdotv n M (mdotv n W x) i = x i.
Proof.
  intros H Hi. unfold mdotv. rewrite (rsum_ext n _ (fun j => rsum n (fun k => M i j * W j k * x k))). 2:{ intros j Hj. rewrite <- rsum_scale. apply rsum_ext. intros k Hk. ring. }
  rewrite rsum_swap. rewrite (rsum_ext n _ (fun k => delta i k * x k)). 2:{ intros k Hk. destruct (H i k Hi Hk) as [<- _]. rewrite (Rmult_comm _ (x k)), <- rsum_scale. apply rsum_ext. intros j Hj. ring. }
  rewrite (rsum_single n i); [unfold delta; rewrite Nat.eqb_refl; ring|exact Hi|]. intros j Hj Hne. unfold delta. destruct (Nat.eqb_spec i j); [congruence|ring].
Qed.
Lemma inverse_r n M W x i : is_inverse n M W -> (i < n)%nat -> mdotv n W (mdotv n M x) i = x i.
Proof.
  intros H Hi. unfold mdotv. rewrite (rsum_ext n _ (fun j => rsum n (fun k => W i j * M j k * x k))). 2:{ intros j Hj. rewrite <- rsum_scale. apply rsum_ext. intros k Hk. ring. }
  rewrite rsum_swap. rewrite (rsum_ext n _ (fun k => delta i k * x k)). 2:{ intros k Hk. destruct (H i k Hi Hk) as [_ <-]. rewrite (Rmult_comm _ (x k)), <- rsum_scale. apply rsum_ext. intros j Hj. ring. }
  rewrite (rsum_single n i); [unfold delta; rewrite Nat.eqb_refl; ring|exact Hi|]. intros j Hj Hne. unfold delta. destruct (Nat.eqb_spec i j); [congruence|ring].
Qed.
(** (W J^T) s = W (J^T s) *)
Definition JT (n4 : nat) (J : mat) (s : vec) : vec := fun j => rsum n4 (fun c => J c j * s c).
Lemma WJT_product n n4 W J s i : mdotv n4 (mat_WJT n W J) s i = mdotv n W (JT n4 J s) i.
Proof.
  unfold mdotv, mat_WJT, JT. rewrite (rsum_ext n4 _ (fun c => rsum n (fun j => W i j * J c j * s c))). 2:{ intros c _. rewrite Rmult_comm, <- rsum_scale. apply rsum_ext. intros j _. ring. }
  rewrite rsum_swap. apply rsum_ext. intros j _. rewrite <- rsum_scale. apply rsum_ext. intros c _. ring.
Qed.
(** duality: J^T s against h is s against J h *)
Lemma JT_dual n n4 J s h : rsum n (fun j => JT n4 J s j * h j) = rsum n4 (fun c => s c * mdotv n J h c).
Proof.
  unfold JT, mdotv. rewrite (rsum_ext n _ (fun j => rsum n4 (fun c => J c j * s c * h j))). 2:{ intros j _. rewrite Rmult_comm, <- rsum_scale. apply rsum_ext. intros c _. ring. }
  rewrite rsum_swap. apply rsum_ext. intros c _. rewrite <- rsum_scale. apply rsum_ext. intros j _. ring.
Qed.

(** ** the contact Jacobian *)
Lemma tsum_node row n d u i : tsum i u (node_entries row n d) = if Nat.eqb row i then vdot d (unflat u n) else 0.
Proof. unfold tsum, node_entries. cbn [fold_right]. destruct (Nat.eqb row i); [|reflexivity]. unfold vdot, unflat. cbn [vx vy vz]. ring. Qed.
Lemma vdot_interp d u o (t : elem) w s : 
  s * (vdot (vscale (w4 w 0) d) (u (node t 0 + o)%nat) + vdot (vscale (w4 w 1) d) (u (node t 1 + o)%nat) + vdot (vscale (w4 w 2) d) (u (node t 2 + o)%nat) + vdot (vscale (w4 w 3) d) (u (node t 3 + o)%nat)) =
  s * vdot d (interpolate (fun i => u (o + i)%nat) t w).
Proof.
  unfold interpolate. rewrite !(Nat.add_comm _ o). generalize (u (o + node t 0)%nat) (u (o + node t 1)%nat) (u (o + node t 2)%nat) (u (o + node t 3)%nat) (w4 w 0) (w4 w 1) (w4 w 2) (w4 w 3). clear. intros. destruct d, v, v0, v1, v2. vunf. ring.
Qed.
Definition contact_frame (cp : scontact) : option (vec3 * vec3 * vec3) := make_orthonormal_vectors (sc_n cp).
(** a contact between tetrahedron tA of body A and tB of body B *)
Definition contact_at (bs : list sbody) (cp : scontact) (A B : sbody) (tA tB : elem) : Prop :=
  nth_error bs (sc_A cp) = Some A /\ nth_error bs (sc_B cp) = Some B /\ nth_error (s_T A) (sc_tetA cp) = Some tA /\ nth_error (s_T B) (sc_tetB cp) = Some tB.
Lemma entries_spec bs k cp l : soft_contact_entries bs k cp = Some l -> exists A B tA tB vs vt vn, contact_at bs cp A B tA tB /\ contact_frame cp = Some (vs, vt, vn) /\
  (forall N, (forall a, (node tA a + s_offset A < N)%nat) -> (forall a, (node tB a + s_offset B < N)%nat) -> Forall (fun t : triplet => let '(r, c, _) := t in (4 * k <= r < 4 * k + 4 /\ c < 3 * N)%nat) l) /\
  forall u i, tsum i u l =
    if Nat.leb (4 * k) i && Nat.ltb i (4 * k + 4) then
      vdot (match (i - 4 * k)%nat with O => vn | 1%nat => vs | 2%nat => vt | _ => vzero end)
           (vsub (interpolate (view (unflat u) B) tB (sc_wB cp)) (interpolate (view (unflat u) A) tA (sc_wA cp))) else 0.
Proof.
  unfold soft_contact_entries, contact_at, contact_frame. destruct (nth_error bs (sc_A cp)) as [A|] eqn:EA; [|discriminate]. destruct (nth_error bs (sc_B cp)) as [B|] eqn:EB; [|discriminate].
  destruct (nth_error (s_T A) (sc_tetA cp)) as [tA|] eqn:ETA; [|discriminate]. destruct (nth_error (s_T B) (sc_tetB cp)) as [tB|] eqn:ETB; [|discriminate].
  destruct (make_orthonormal_vectors (sc_n cp)) as [[[vs vt] vn]|] eqn:EF; [|discriminate]. cbv zeta. intros H. apply some_eq in H. subst l.
  exists A, B, tA, tB, vs, vt, vn. split; [auto|]. split; [reflexivity|]. split.
  - intros N HA HB. pose proof (HA 0%nat). pose proof (HA 1%nat). pose proof (HA 2%nat). pose proof (HA 3%nat). pose proof (HB 0%nat). pose proof (HB 1%nat). pose proof (HB 2%nat). pose proof (HB 3%nat). clear HA HB.
    assert (NE : forall r n d, (4 * k <= r < 4 * k + 4)%nat -> (n < N)%nat -> Forall (fun t : triplet => let '(r, c, _) := t in (4 * k <= r < 4 * k + 4 /\ c < 3 * N)%nat) (node_entries r n d)).
    { intros r n d Hr Hn. unfold node_entries. repeat constructor; lia. }
    cbn [seq map concat]. rewrite !app_nil_r. rewrite !Forall_app. repeat split; apply NE; lia.
  - intros u i. cbn [seq map concat]. rewrite !app_nil_r, !tsum_app, !tsum_node.
    assert (X : forall d, (vdot (vopp (vscale (w4 (sc_wA cp) 0) d)) (unflat u (node tA 0 + s_offset A)%nat) + (vdot (vopp (vscale (w4 (sc_wA cp) 1) d)) (unflat u (node tA 1 + s_offset A)%nat) + (vdot (vopp (vscale (w4 (sc_wA cp) 2) d)) (unflat u (node tA 2 + s_offset A)%nat) + vdot (vopp (vscale (w4 (sc_wA cp) 3) d)) (unflat u (node tA 3 + s_offset A)%nat)))
      + (vdot (vscale (w4 (sc_wB cp) 0) d) (unflat u (node tB 0 + s_offset B)%nat) + (vdot (vscale (w4 (sc_wB cp) 1) d) (unflat u (node tB 1 + s_offset B)%nat) + (vdot (vscale (w4 (sc_wB cp) 2) d) (unflat u (node tB 2 + s_offset B)%nat) + vdot (vscale (w4 (sc_wB cp) 3) d) (unflat u (node tB 3 + s_offset B)%nat))))) =
      vdot d (vsub (interpolate (view (unflat u) B) tB (sc_wB cp)) (interpolate (view (unflat u) A) tA (sc_wA cp)))).
    { intros d. unfold interpolate, view. rewrite !(Nat.add_comm _ (s_offset A)), !(Nat.add_comm _ (s_offset B)).
      generalize (unflat u (s_offset A + node tA 0)%nat) (unflat u (s_offset A + node tA 1)%nat) (unflat u (s_offset A + node tA 2)%nat) (unflat u (s_offset A + node tA 3)%nat)
        (unflat u (s_offset B + node tB 0)%nat) (unflat u (s_offset B + node tB 1)%nat) (unflat u (s_offset B + node tB 2)%nat) (unflat u (s_offset B + node tB 3)%nat)
        (w4 (sc_wA cp) 0) (w4 (sc_wA cp) 1) (w4 (sc_wA cp) 2) (w4 (sc_wA cp) 3) (w4 (sc_wB cp) 0) (w4 (sc_wB cp) 1) (w4 (sc_wB cp) 2) (w4 (sc_wB cp) 3).
      clear. intros. destruct d, v, v0, v1, v2, v3, v4, v5, v6. vunf. ring. }
    set (y := vsub _ _) in *.
    destruct (Nat.leb_spec (4 * k) i) as [L|L]; [destruct (Nat.ltb_spec i (4 * k + 4)) as [L2|L2]|]; cbn [andb].
    + assert (Ci : (i = 4 * k + 0 \/ i = 4 * k + 1 \/ i = 4 * k + 2 \/ i = 4 * k + 3)%nat) by lia.
      destruct Ci as [Ci|[Ci|[Ci|Ci]]]; rewrite Ci; clear L L2; repeat match goal with |- context [Nat.eqb ?a ?b] => destruct (Nat.eqb_spec a b); [|]; try (exfalso; lia) end;
      repeat match goal with H : (_ = _ :> nat) |- _ => clear H | H : (_ <> _ :> nat) |- _ => clear H end;

      (replace (4 * k + 0 - 4 * k)%nat with 0%nat by lia) || (replace (4 * k + 1 - 4 * k)%nat with 1%nat by lia) || (replace (4 * k + 2 - 4 * k)%nat with 2%nat by lia) || (replace (4 * k + 3 - 4 * k)%nat with 3%nat by lia);
      cbn iota beta; rewrite <- X; ring.
    + repeat match goal with |- context [Nat.eqb ?a ?b] => destruct (Nat.eqb_spec a b); [exfalso; lia|] end. ring.
    + repeat match goal with |- context [Nat.eqb ?a ?b] => destruct (Nat.eqb_spec a b); [exfalso; lia|] end. ring.
Qed.
Lemma map_all_nth {A B} (f : A -> option B) l r : map_all f l = Some r -> length r = length l /\ forall k a, nth_error l k = Some a -> exists b, f a = Some b /\ nth_error r k = Some b.
Proof.
  revert r. induction l as [|x l IH]; intros r H; cbn [map_all] in H; [injection H as <-; split; [reflexivity|intros [|k] a Hk; discriminate]|].
  destruct (f x) as [y|] eqn:E; [|discriminate]. destruct (map_all f l) as [ys|] eqn:El; [|discriminate]. injection H as <-. destruct (IH ys eq_refl) as [L P]. split; [cbn; congruence|].
  intros [|k] a Hk; [injection Hk as <-; exists y; split; [exact E|reflexivity]|apply P; exact Hk].
Qed.
Lemma nth_error_enum {A} (l : list A) k a : nth_error (combine (seq 0 (length l)) l) k = Some a -> fst a = k /\ nth_error l k = Some (snd a).
Proof.
  assert (G : forall s k a, nth_error (combine (seq s (length l)) l) k = Some a -> fst a = (s + k)%nat /\ nth_error l k = Some (snd a)).
  { induction l as [|x l IH]; intros s [|j] b H; cbn in *; try discriminate. - injection H as <-. cbn. split; [lia|reflexivity]. - destruct (IH (S s) j b H) as [E1 E2]. split; [lia|exact E2]. }
  intros H. apply (G 0%nat k a H).
Qed.
Lemma enum_nth_error {A} (l : list A) k a : nth_error l k = Some a -> nth_error (combine (seq 0 (length l)) l) k = Some (k, a).
Proof.
  assert (G : forall s k, nth_error l k = Some a -> nth_error (combine (seq s (length l)) l) k = Some ((s + k)%nat, a)).
  { induction l as [|x l IH]; intros s [|j] H; cbn in *; try discriminate. - injection H as ->. rewrite Nat.add_0_r. reflexivity. - rewrite (IH (S s) j H). f_equal. f_equal. lia. }
  intros H. apply (G 0%nat k H).
Qed.
Lemma contact_nodes e cp A B tA tB : soft_ok e -> forallb ready (sg_bodies e) = true -> contact_at (sg_bodies e) cp A B tA tB ->
  In A (sg_bodies e) /\ In B (sg_bodies e) /\ (forall a, (node tA a < s_n A)%nat) /\ (forall a, (node tB a < s_n B)%nat) /\ (forall a, (node tA a + s_offset A < sg_N e)%nat) /\ (forall a, (node tB a + s_offset B < sg_N e)%nat).
Proof.
  intros HO HR (H1 & H2 & H3 & H4). apply nth_error_In in H1, H2, H3, H4. pose proof (so_bodies e HO) as HB. rewrite Forall_forall in HB.
  pose proof (bo_mesh A (HB A H1)) as VA. pose proof (bo_mesh B (HB B H2)) as VB. unfold valid_mesh in VA, VB. rewrite Forall_forall in VA, VB. specialize (VA _ H3). specialize (VB _ H4). cbv beta in VA, VB.
  destruct (layout_range _ _ _ (so_layout e HO) HR A H1) as [_ RA]. destruct (layout_range _ _ _ (so_layout e HO) HR B H2) as [_ RB].
  repeat (split; [assumption|]). split; intros a; [specialize (VA a)|specialize (VB a)]; lia.
Qed.
(** the rows of contact k applied to the nodal velocities u *)
Lemma jacobian_row e J : soft_ok e -> forallb ready (sg_bodies e) = true -> soft_jacobian e = Some J -> forall k cp, nth_error (sg_contacts e) k = Some cp ->
  exists A B tA tB vs vt vn, contact_at (sg_bodies e) cp A B tA tB /\ contact_frame cp = Some (vs, vt, vn) /\
  forall u, let w := vsub (interpolate (view (unflat u) B) tB (sc_wB cp)) (interpolate (view (unflat u) A) tA (sc_wA cp)) in
    mdotv (3 * sg_N e) J u (4 * k)%nat = vdot vn w /\ mdotv (3 * sg_N e) J u (4 * k + 1)%nat = vdot vs w /\ mdotv (3 * sg_N e) J u (4 * k + 2)%nat = vdot vt w /\ mdotv (3 * sg_N e) J u (4 * k + 3)%nat = 0.
Proof.
  intros HO HR HJ k cp Hk. unfold soft_jacobian in HJ. destruct (map_all _ _) as [ts|] eqn:E; [|discriminate]. apply some_eq in HJ. subst J. destruct (map_all_nth _ _ _ E) as [L P].
  destruct (P k (k, cp) (enum_nth_error _ _ _ Hk)) as (l & El & Nl). cbn [fst snd] in El.
  assert (Q : forall k' l', nth_error ts k' = Some l' -> Forall (fun t : triplet => let '(r, c, _) := t in (4 * k' <= r < 4 * k' + 4 /\ c < 3 * sg_N e)%nat) l').
  { intros k' l' Hk'. assert (Lk : (k' < length ts)%nat) by (apply nth_error_Some; congruence). rewrite L in Lk.
    destruct (nth_error (combine (seq 0 (length (sg_contacts e))) (sg_contacts e)) k') as [[k0 cp']|] eqn:Ek; [|apply nth_error_None in Ek; lia].
    destruct (P k' _ Ek) as (l0 & El0 & Nl0). destruct (nth_error_enum _ _ _ Ek) as [F1 F2]. cbn [fst snd] in *. subst k0. assert (l0 = l') by congruence. subst l0.
    destruct (entries_spec _ _ _ _ El0) as (A & B & tA & tB & vs & vt & vn & HC & _ & HR' & _). destruct (contact_nodes e cp' A B tA tB HO HR HC) as (_ & _ & _ & _ & NA & NB). apply HR'; assumption. }
  destruct (entries_spec _ _ _ _ El) as (A & B & tA & tB & vs & vt & vn & HC & HF & _ & HT). exists A, B, tA, tB, vs, vt, vn. split; [exact HC|]. split; [exact HF|]. intros u.
  assert (D : forall i, (4 * k <= i < 4 * k + 4)%nat -> mdotv (3 * sg_N e) (csr (concat ts)) u i = tsum i u l).
  { intros i Hi. rewrite csr_dot.
    - apply (tsum_concat i u ts k l Nl). intros k' l' Hk' Hne. eapply Forall_impl; [|apply (Q k' l' Hk')]. intros [[r c] d] HH. cbn beta iota in *. lia.
    - apply Forall_forall. intros [[r c] d] Hin. apply in_concat in Hin as (l' & Hl' & Hin). apply In_nth_error in Hl' as [k' Hk']. specialize (Q k' l' Hk'). rewrite Forall_forall in Q. specialize (Q _ Hin). cbn in Q. lia. }
  cbv zeta. rewrite !D by lia. rewrite !HT.
  repeat split; rewrite (proj2 (Nat.leb_le _ _)) by lia; rewrite (proj2 (Nat.ltb_lt _ _)) by lia; cbn [andb].
  - replace (4 * k - 4 * k)%nat with 0%nat by lia. reflexivity.
  - replace (4 * k + 1 - 4 * k)%nat with 1%nat by lia. reflexivity.
  - replace (4 * k + 2 - 4 * k)%nat with 2%nat by lia. reflexivity.
  - replace (4 * k + 3 - 4 * k)%nat with 3%nat by lia. generalize (vsub (interpolate (view (unflat u) B) tB (sc_wB cp)) (interpolate (view (unflat u) A) tA (sc_wA cp))). intros [x y z]. vunf. ring.
Qed.
