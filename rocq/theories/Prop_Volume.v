(** Property theorems C33-C36: tetrahedral meshes (rainbow/geometry/volume_mesh.py) *)
From Verif Require Import Base BvhModel BvhProofs GridModel GridProofs VolModel VolSpec ListProofs VolProofs SubdivProofs CircProofs.
From Coq Require Import Permutation Sorted.
Open Scope R_scope.

(** ** C33 cube meshing *)
(** Specification: every node index of every tetrahedron is in [0,n) *)
Definition valid_mesh (n : Z) (T : list tet) : Prop := forall i j k m v, In (i, j, k, m) T -> In v [i; j; k; m] -> (0 <= v < n)%Z.
Theorem C33_count : forall I J K, (1 <= I)%Z -> (1 <= J)%Z -> (1 <= K)%Z ->
  Z.of_nat (length (create_tetrahedron_array_from_cube_mesh I J K)) = (5 * (I - 1) * (J - 1) * (K - 1))%Z.
Proof. exact cube_len. Qed.
Print Assumptions C33_count.
Theorem C33_valid_indices : forall I J K, valid_mesh (I * J * K) (create_tetrahedron_array_from_cube_mesh I J K).
Proof. intros I J K i j k m v Ht Hv. eapply cube_nodes; eauto. Qed.
Print Assumptions C33_valid_indices.
(** a beam: the vertices are exactly the lattice points of the centred box, all volumes are positive and
    they sum to the volume of the box *)
Theorem C33_beam : forall I J K width height depth, (2 <= I)%Z -> (2 <= J)%Z -> (2 <= K)%Z -> 0 < width -> 0 < height -> 0 < depth ->
  exists V vols,
    create_beam I J K width height depth = Some (V, create_tetrahedron_array_from_cube_mesh I J K) /\
    Z.of_nat (length V) = (I * J * K)%Z /\
    (forall i j k, (0 <= i < I)%Z -> (0 <= j < J)%Z -> (0 <= k < K)%Z ->
       nth_error V (Z.to_nat (i + I * (j + J * k))) =
         Some (mkV (width * (IZR i / IZR (I - 1) - 1 / 2)) (height * (IZR j / IZR (J - 1) - 1 / 2)) (depth * (IZR k / IZR (K - 1) - 1 / 2)))) /\
    compute_volumes V (create_tetrahedron_array_from_cube_mesh I J K) = Some vols /\
    length vols = length (create_tetrahedron_array_from_cube_mesh I J K) /\
    Forall (fun v => 0 < v) vols /\ fold_right Rplus 0 vols = width * height * depth.
Proof.
  intros I J K w h d HI HJ HK Hw Hh Hd.
  set (g := mkG vzero vzero I J K vzero None).
  destruct (node_loop_store g (fun i j k => mkV (- w / 2 + IZR i * (w / IZR (I - 1))) (- h / 2 + IZR j * (h / IZR (J - 1))) (- d / 2 + IZR k * (d / IZR (K - 1)))) vzero) as (V & E & L & S); auto.
  cbn [g_I g_J g_K g] in *.
  assert (N : forall n, (2 <= n)%Z -> 0 < IZR (n - 1)) by (intros; apply IZR_lt; lia).
  pose proof (N I HI) as NI. pose proof (N J HJ) as NJ. pose proof (N K HK) as NK.
  assert (LV : lattice V I J K (mkV (- w / 2) (- h / 2) (- d / 2)) (mkV (w / IZR (I - 1)) (h / IZR (J - 1)) (d / IZR (K - 1)))).
  { intros i j k Hi Hj Hk. cbn [vx vy vz]. rewrite <- (S i j k Hi Hj Hk). f_equal. unfold get_linear_index. cbn. ring. }
  destruct (cube_volumes V I J K _ _ LV) as (vs & Ev & Sv & Fv); cbn [vx vy vz]; try (apply Rdiv_lt_0_compat; auto); try lia.
  exists V, vs. split; [|split; [|split; [|split; [|split; [|split]]]]]; auto.
  - unfold create_beam. cbv zeta.
    assert (E' : forall (f : Z * Z * Z -> vec3) ts l, store_all f (fun '(i, j, k) => (i + j * I + k * I * J)%Z) ts l = store_all f (fun '(i, j, k) => get_linear_index g i j k) ts l).
    { intros f ts. induction ts as [|[[a b] c] ts IH]; intros l; cbn; auto. replace (get_linear_index g a b c) with (a + b * I + c * I * J)%Z by (unfold get_linear_index; cbn; ring).
      destruct (py_set l (a + b * I + c * I * J)%Z (f (a, b, c))); auto. }
    rewrite E'. unfold node_loop in E. cbn [g_I g_J g_K g] in E. rewrite E. auto.
  - intros i j k Hi Hj Hk. pose proof (S i j k Hi Hj Hk) as P. unfold py_get, get_linear_index in P. cbn [g_I g_J g] in P.
    pose proof (lin_range g i j k HI HJ HK Hi Hj Hk) as Rg. unfold get_linear_index in Rg. cbn [g_I g_J g_K g] in Rg.
    rewrite <- (Z2Nat.id (i + I * (j + J * k))) in P by lia. rewrite py_idx_nat in P by lia. rewrite P. f_equal. f_equal; field; lra.
  - unfold compute_volumes in Ev. clear - Ev. revert vs Ev. induction (create_tetrahedron_array_from_cube_mesh I J K) as [|t T IH]; intros vs Ev; cbn in Ev.
    + injection Ev as <-. auto.
    + destruct (tet_volume V t); [|discriminate]. destruct (map_opt (tet_volume V) T); [|discriminate]. injection Ev as <-. cbn. f_equal. apply IH. auto.
  - change (Rsum vs = w * h * d). rewrite Sv. cbn [vx vy vz]. field. lra.
Qed.
Print Assumptions C33_beam.
(** a mesh built from a Grid: same connectivity, volumes positive and filling the grid box *)
Theorem C33_from_grid : forall lo hi I J K g, grid_make lo hi I J K = Some g -> vx lo < vx hi -> vy lo < vy hi -> vz lo < vz hi ->
  exists V vols, from_grid3d g = Some (V, create_tetrahedron_array_from_cube_mesh I J K, g_values g) /\
    compute_volumes V (create_tetrahedron_array_from_cube_mesh I J K) = Some vols /\
    Forall (fun v => 0 < v) vols /\ fold_right Rplus 0 vols = (vx hi - vx lo) * (vy hi - vy lo) * (vz hi - vz lo).
Proof.
  intros lo hi I J K g G Hx Hy Hz. pose proof G as G0. apply grid_make_inv in G. destruct G as (E1 & E2 & E3 & E4 & E5 & E6 & HI & HJ & HK & _ & _ & _ & O).
  assert (Es : g_spacing g = mkV ((vx hi - vx lo) / IZR (I - 1)) ((vy hi - vy lo) / IZR (J - 1)) ((vz hi - vz lo) / IZR (K - 1))).
  { unfold grid_make in G0. destruct (any_lt hi lo), (I <? 2)%Z, (J <? 2)%Z, (K <? 2)%Z; try discriminate. injection G0 as <-. reflexivity. }
  assert (N : forall n, (2 <= n)%Z -> 0 < IZR (n - 1)) by (intros; apply IZR_lt; lia).
  pose proof (N I HI) as NI. pose proof (N J HJ) as NJ. pose proof (N K HK) as NK.
  destruct (node_loop_store g (fun i j k => get_node_coord g i j k) vzero) as (V & E & L & S); try lia.
  assert (LV : lattice V I J K lo (g_spacing g)).
  { intros i j k Hi Hj Hk. subst I J K. rewrite <- E1. unfold get_node_coord, vadd in S. cbn [vx vy vz] in S.
    rewrite (Rmult_comm (IZR i)), (Rmult_comm (IZR j)), (Rmult_comm (IZR k)). rewrite <- (S i j k) by auto. f_equal. unfold get_linear_index. ring. }
  destruct (cube_volumes V I J K _ _ LV) as (vs & Ev & Sv & Fv); rewrite ?Es in *; cbn [vx vy vz] in *; try (apply Rdiv_lt_0_compat; lra); try lia.
  exists V, vs. split; [|split; [|split]]; auto.
  - unfold from_grid3d, get_nodes_array. rewrite E, E3, E4, E5. auto.
  - change (Rsum vs = (vx hi - vx lo) * (vy hi - vy lo) * (vz hi - vz lo)). rewrite Sv. field. lra.
Qed.
Print Assumptions C33_from_grid.
Example C33_nonvacuous : exists V T, create_beam 3 2 2 2 1 1 = Some (V, T) /\ length T = 10%nat /\ length V = 12%nat /\ nth_error T 5 = Some (1, 2, 4, 7)%Z.
Proof. eexists. eexists. split; [reflexivity|]. split; [reflexivity|]. split; reflexivity. Qed.

(** ** C34 neighbours and boundary surface *)
Lemma neighbors_len T : length (compute_neighbors T) = (4 * length T)%nat.
Proof. unfold compute_neighbors. rewrite link_writes, fold_writes_length, repeat_length. auto. Qed.
Lemma sorted_in T x : In x (isort finfo_leb (face_info T)) <-> In x (face_info T).
Proof. split; apply Permutation_in; [apply Permutation_sym|]; apply isort_perm. Qed.
(** every write concerns two distinct records with equal vertices *)
Lemma write_shared T n x : In (n, x) (writes (isort finfo_leb (face_info T))) ->
  exists r r', In r (face_info T) /\ In r' (face_info T) /\ r <> r' /\ f_verts r = f_verts r' /\ n = slot_idx r /\ x = Z.of_nat (f_elem r').
Proof.
  intros H. apply in_writes in H. destruct H as (l1 & a & b & l2 & E & Hv & H).
  assert (Ha : In a (face_info T)) by (apply sorted_in; rewrite E; apply in_app_iff; cbn; auto).
  assert (Hb : In b (face_info T)) by (apply sorted_in; rewrite E; apply in_app_iff; cbn; auto).
  assert (Hne : a <> b).
  { assert (ND : NoDup (isort finfo_leb (face_info T))) by (eapply Permutation_NoDup; [apply isort_perm|apply face_info_NoDup]).
    rewrite E in ND. apply NoDup_remove_2 in ND. intros ->. apply ND. apply in_app_iff; cbn; auto. }
  destruct H as [[-> ->]|[-> ->]]; [exists a, b|exists b, a]; auto 10.
Qed.
Lemma N_slot T r : In r (face_info T) -> (f_elem r < length T)%nat /\ (f_opp r < 4)%nat /\ (slot_idx r < 4 * length T)%nat.
Proof. intros H. apply rec_slot in H. destruct H as [H1 H2]. cbn in H1, H2. unfold slot_idx. lia. Qed.
(** the value stored is -1 exactly on the boundary; otherwise some slot of the stored tetrahedron has the face *)
Theorem C34_boundary_marks : forall T e v, is_slot T (e, v) ->
  (N_at (compute_neighbors T) e v = Some (-1)%Z <-> boundary_slot T (e, v)) /\
  (N_at (compute_neighbors T) e v <> Some (-1)%Z ->
     exists n v', N_at (compute_neighbors T) e v = Some (Z.of_nat n) /\ (n, v') <> (e, v) /\ same_face T (e, v) (n, v')).
Proof.
  intros T e v Hs. destruct (slot_rec T (e, v) Hs) as (r & Hr & Er). destruct (N_slot T r Hr) as (H1 & H2 & H3).
  assert (Ei : (4 * e + v)%nat = slot_idx r) by (unfold rec_of in Er; unfold slot_idx; injection Er as <- <-; auto).
  set (W := writes (isort finfo_leb (face_info T))).
  assert (EN : N_at (compute_neighbors T) e v = nth_error (fold_writes W (repeat (-1)%Z (4 * length T))) (slot_idx r)) by (unfold N_at, compute_neighbors; rewrite link_writes, Ei; auto).
  assert (Wr : forall x, In (slot_idx r, x) W -> exists n v', x = Z.of_nat n /\ (n, v') <> (e, v) /\ same_face T (e, v) (n, v')).
  { intros x Hx. destruct (write_shared T _ _ Hx) as (a & b & Ha & Hb & Hne & Hv & Ea & ->).
    assert (a = r) as ->. { apply (rec_inj T); auto. apply slot_idx_inj; [apply (N_slot T); auto|auto|auto]. }
    exists (f_elem b), (f_opp b). split; auto. rewrite <- Er. change (f_elem b, f_opp b) with (rec_of b). split.
    - intros E. apply Hne. apply (rec_inj T); auto.
    - apply same_face_rec; auto. }
  assert (Last : (exists x, In (slot_idx r, x) W) -> exists x, In (slot_idx r, x) W /\ N_at (compute_neighbors T) e v = Some x).
  { rewrite EN. intros Hx. clear - Hx H3. assert (Hl : (slot_idx r < length (repeat (-1)%Z (4 * length T)))%nat) by (rewrite repeat_length; auto).
    revert Hx Hl. generalize (repeat (-1)%Z (4 * length T)) as l. generalize (slot_idx r) as n. intros n. clear H3.
    induction W as [|[k y] W' IH]; intros l (x & Hx) Hl; [contradiction|]. change (fold_writes ((k, y) :: W') l) with (fold_writes W' (list_upd l k y)).
    destruct (in_dec Nat.eq_dec n (map fst W')) as [Hi|Hi].
    - apply in_map_iff in Hi. destruct Hi as ([n' z] & <- & Hz). destruct (IH (list_upd l k y)) as (x' & Hx' & E'); [exists z; exact Hz|rewrite list_upd_length; exact Hl|].
      exists x'. split; [right; auto|auto].
    - assert (Hn' : forall z, ~ In (n, z) W') by (intros z Hz; apply Hi, in_map_iff; exists (n, z); auto).
      destruct Hx as [E|Hx]; [|exfalso; eapply Hn'; eauto]. injection E as -> ->. exists x. split; [left; auto|]. rewrite fold_writes_none by exact Hn'. apply list_upd_same. exact Hl. }
  assert (Bd : (exists x, In (slot_idx r, x) W) \/ (forall x, ~ In (slot_idx r, x) W)).
  { destruct (in_dec Nat.eq_dec (slot_idx r) (map fst W)) as [Hi|Hi].
    - left. apply in_map_iff in Hi. destruct Hi as ([n' z] & <- & Hz). exists z. auto.
    - right. intros z Hz. apply Hi, in_map_iff. exists (slot_idx r, z). auto. }
  destruct Bd as [Bd|Bd].
  - destruct (Last Bd) as (x & Hx & E). destruct (Wr x Hx) as (n & v' & -> & Hne & Hsf). rewrite E. split.
    + split; [intros Eq; exfalso; assert (Z.of_nat n = -1)%Z by congruence; lia|]. intros [_ Hb]. exfalso. apply Hne, Hb, Hsf.
    + intros _. exists n, v'. auto.
  - assert (E : N_at (compute_neighbors T) e v = Some (-1)%Z) by (rewrite EN, fold_writes_none by auto; apply nth_error_repeat; auto). rewrite E. split; [|congruence].
    split; [|auto]. intros _. split; auto. intros s' Hs'.
    destruct Hs' as (f & f' & F1 & F2 & P). assert (Hs2 : is_slot T s') by (destruct F2 as (t & Ht & Ho & _); split; auto; apply nth_error_Some; congruence).
    destruct (slot_rec T s' Hs2) as (r' & Hr' & Er').
    destruct (Nat.eq_dec (slot_idx r') (slot_idx r)) as [Eq|Nq].
    + rewrite <- Er, <- Er'. apply slot_idx_inj; auto. apply (N_slot T); auto.
    + exfalso. assert (Hne : r <> r') by (intros ->; auto).
      assert (Hv : f_verts r = f_verts r') by (apply (same_face_rec T); auto; rewrite Er, Er'; exists f, f'; auto).
      destruct (adjacent_any T r r' Hr Hr' Hne Hv) as (c & Hc & [(l1 & l2 & E2)|(l1 & l2 & E2)]).
      * apply (Bd (Z.of_nat (f_elem c))). unfold W. apply in_writes. exists l1, r, c, l2. auto.
      * apply (Bd (Z.of_nat (f_elem c))). unfold W. apply in_writes. exists l1, c, r, l2. auto.
Qed.
Print Assumptions C34_boundary_marks.
(** on a mesh in which no face is shared by three tetrahedra *)
Theorem C34_neighbors : forall T e v n, at_most_two T -> is_slot T (e, v) ->
  (N_at (compute_neighbors T) e v = Some (Z.of_nat n) <-> exists v', (n, v') <> (e, v) /\ same_face T (e, v) (n, v')).
Proof.
  intros T e v n A2 Hs.
  assert (Gen : forall n' v', (n', v') <> (e, v) -> same_face T (e, v) (n', v') -> N_at (compute_neighbors T) e v = Some (Z.of_nat n')).
  { intros n' v' Hne Hsf. destruct (C34_boundary_marks T e v Hs) as [Hb Hn].
    destruct Hn as (n2 & v2 & E & Hne2 & Hsf2). { intros E. apply Hb in E. apply Hne, E, Hsf. }
    destruct (A2 _ _ _ Hsf Hsf2) as [Eq|[Eq|Eq]]; try congruence. }
  split.
  - intros E. destruct (C34_boundary_marks T e v Hs) as [Hb Hn]. destruct Hn as (n2 & v2 & E2 & Hne2 & Hsf2). { rewrite E. intros Eq. assert (Z.of_nat n = -1)%Z by congruence. lia. }
    assert (n2 = n) as -> by (apply Nat2Z.inj; congruence). exists v2. auto.
  - intros (v' & Hne & Hsf). eapply Gen; eauto.
Qed.
Print Assumptions C34_neighbors.
(** the neighbour relation is symmetric *)
Theorem C34_symmetric : forall T e v n, at_most_two T -> is_slot T (e, v) -> N_at (compute_neighbors T) e v = Some (Z.of_nat n) ->
  exists v', is_slot T (n, v') /\ same_face T (e, v) (n, v') /\ N_at (compute_neighbors T) n v' = Some (Z.of_nat e).
Proof.
  intros T e v n A2 Hs E. apply C34_neighbors in E; auto. destruct E as (v' & Hne & (f & f' & F1 & F2 & P)). exists v'.
  assert (Hs' : is_slot T (n, v')) by (destruct F2 as (t & Ht & Ho & _); split; auto; apply nth_error_Some; congruence).
  split; auto. split; [exists f, f'; auto|]. apply C34_neighbors; auto. exists v. split; [congruence|]. exists f', f. split; auto. split; auto. apply Permutation_sym; auto.
Qed.
Print Assumptions C34_symmetric.
Lemma in_surface T N f e v : In (f, (e, v)) (compute_surface T N) <->
  exists i j k m, nth_error T e = Some (i, j, k, m) /\ N_at N e v = Some (-1)%Z /\
    ((v = 0%nat /\ f = (j, k, m)) \/ (v = 1%nat /\ f = (i, m, k)) \/ (v = 2%nat /\ f = (j, m, i)) \/ (v = 3%nat /\ f = (j, i, k))).
Proof.
  assert (On : forall (v0 : nat) f0 e0, In (f, (e, v)) (match N_at N e0 v0 with Some n => if (n =? -1)%Z then [(f0, (e0, v0))] else [] | None => [] end : list (tri * (nat * nat)))
     <-> (e = e0 /\ v = v0 /\ f = f0 /\ N_at N e v = Some (-1)%Z)).
  { intros v0 f0 e0. split.
    - destruct (N_at N e0 v0) as [n|] eqn:E; [|contradiction]. destruct (Z.eqb_spec n (-1)) as [->|]; [|contradiction]. intros [Eq|[]]. injection Eq as <- <- <-. auto.
    - intros (-> & -> & -> & ->). cbn. auto. }
  unfold compute_surface. rewrite in_concat. split.
  - intros (l & Hl & H). apply in_map_iff in Hl. destruct Hl as ([e0 [[[i j] k] m]] & <- & He). apply nth_error_enum in He. destruct He as [_ He]. rewrite Nat.sub_0_r in He.
    cbn [fst snd surface_of] in H. rewrite !in_app_iff, !On in H.
    destruct H as [(-> & -> & -> & E)|[(-> & -> & -> & E)|[(-> & -> & -> & E)|(-> & -> & -> & E)]]]; exists i, j, k, m; auto 10.
  - intros (i & j & k & m & Ht & E & H). exists (surface_of N e (i, j, k, m)). split.
    + apply in_map_iff. exists (e, (i, j, k, m)). split; auto. apply nth_error_enum. rewrite Nat.sub_0_r. split; [lia|auto].
    + cbn [surface_of]. rewrite !in_app_iff, !On. destruct H as [(-> & ->)|[(-> & ->)|[(-> & ->)|(-> & ->)]]]; auto 12.
Qed.
(** compute_surface: one row per boundary slot, with its owner (element, local node); the row consists of the
    nodes of that face *)
Theorem C34_surface : forall T,
  let surface := compute_surface T (compute_neighbors T) in
  NoDup (map snd surface) /\
  (forall e v, In (e, v) (map snd surface) <-> boundary_slot T (e, v)) /\
  (forall a b c e v, In ((a, b, c), (e, v)) surface -> exists f, face_of T (e, v) f /\ Permutation [a; b; c] f).
Proof.
  intros T. cbv zeta. split; [|split].
  - unfold compute_surface. rewrite concat_map, map_map, <- flat_map_concat_map. apply NoDup_flat_map; [apply NoDup_enum| |].
    + intros [e [[[i j] k] m]] _. cbn [fst snd surface_of].
      repeat match goal with |- context [N_at ?N e ?v] => destruct (N_at N e v) as [?n|]; [destruct ((_ =? -1)%Z)|] end;
        cbn [app map snd]; repeat (apply NoDup_cons; [cbn; intros H; decompose [or] H; try contradiction; congruence|]); apply NoDup_nil.
    + intros [e t] [e' t'] s Hx Hy H H'. cbn [fst snd] in *.
      assert (Y : forall e t, In s (map snd (surface_of (compute_neighbors T) e t)) -> fst s = e).
      { clear. intros e [[[i j] k] m] H. cbn [surface_of] in H. apply in_map_iff in H. destruct H as ([f s0] & <- & H). rewrite !in_app_iff in H.
        assert (X : forall o v f0, In (f, s0) (match o with Some n => if (n =? -1)%Z then [(f0 : tri, (e, v : nat))] else [] | None => [] end) -> fst s0 = e).
        { intros [n|] v f0 Hi; [|contradiction]. destruct (n =? -1)%Z; [|contradiction]. destruct Hi as [Eq|[]]. injection Eq as <- <-. auto. }
        destruct H as [H|[H|[H|H]]]; apply X in H; auto. }
      apply Y in H. apply Y in H'. subst. apply nth_error_enum in Hx, Hy. destruct Hx as [_ Hx], Hy as [_ Hy]. rewrite Hx in Hy. injection Hy as <-. auto.
  - intros e v. rewrite in_map_iff. split.
    + intros ([f s] & Es & H). cbn in Es. subst s. apply in_surface in H. destruct H as (i & j & k & m & Ht & E & Hv).
      apply C34_boundary_marks; auto. split; cbn; [apply nth_error_Some; congruence|]. destruct Hv as [(-> & _)|[(-> & _)|[(-> & _)|(-> & _)]]]; lia.
    + intros Hb. pose proof Hb as [[H1 H2] _]. cbn in H1, H2. destruct (nth_error T e) as [[[[i j] k] m]|] eqn:Ht; [|apply nth_error_None in Ht; lia].
      assert (E : N_at (compute_neighbors T) e v = Some (-1)%Z) by (apply C34_boundary_marks; auto; split; auto).
      destruct v as [|[|[|[|v]]]]; [exists ((j, k, m), (e, 0%nat))|exists ((i, m, k), (e, 1%nat))|exists ((j, m, i), (e, 2%nat))|exists ((j, i, k), (e, 3%nat))|lia]; (split; [reflexivity|]; apply in_surface; exists i, j, k, m; auto 10).
  - intros a b c e v H. apply in_surface in H. destruct H as (i & j & k & m & Ht & E & Hv). exists (face_verts (i, j, k, m) v). split.
    + exists (i, j, k, m). split; auto. split; auto. cbn. destruct Hv as [(-> & _)|[(-> & _)|[(-> & _)|(-> & _)]]]; lia.
    + destruct Hv as [(-> & Eq)|[(-> & Eq)|[(-> & Eq)|(-> & Eq)]]]; injection Eq as -> -> ->; cbn.
      * auto.
      * constructor. constructor.
      * apply Permutation_sym, (Permutation_cons_append [j; m] i).
      * constructor.
Qed.
Print Assumptions C34_surface.
(** outward orientation: the vertices of each row are ordered so that the right-hand normal points away from
    the element's remaining node, by exactly 6 times the element's signed volume *)
Theorem C34_surface_outward : forall V T a b c e v i j k m pa pb pc po vol,
  In ((a, b, c), (e, v)) (compute_surface T (compute_neighbors T)) ->
  nth_error T e = Some (i, j, k, m) -> tet_volume V (i, j, k, m) = Some vol ->
  py_get V a = Some pa -> py_get V b = Some pb -> py_get V c = Some pc ->
  py_get V (nth v [i; j; k; m] (-1)%Z) = Some po ->
  vdot (vcross (vsub pb pa) (vsub pc pa)) (vsub po pa) = - (6 * vol).
Proof.
  intros V T a b c e v i j k m pa pb pc po vol H Ht Hvol Ha Hb Hc Ho. apply in_surface in H. destruct H as (i' & j' & k' & m' & Ht' & _ & Hv).
  rewrite Ht in Ht'. assert (Some_inj : forall x y : tet, Some x = Some y -> x = y) by congruence. apply Some_inj in Ht'. injection Ht' as <- <- <- <-.
  unfold tet_volume in Hvol. destruct (py_get V i) as [r0|] eqn:E0; [|discriminate]. destruct (py_get V j) as [r1|] eqn:E1; [|discriminate].
  destruct (py_get V k) as [r2|] eqn:E2; [|discriminate]. destruct (py_get V m) as [r3|] eqn:E3; [|discriminate].
  assert (RI : forall x y : R, Some x = Some y -> x = y) by congruence. apply RI in Hvol. subst vol.
  assert (VI : forall x y : vec3, Some x = Some y -> x = y) by congruence.
  destruct Hv as [(-> & Eq)|[(-> & Eq)|[(-> & Eq)|(-> & Eq)]]]; injection Eq as -> -> ->; cbn [nth] in Ho;
    rewrite ?E0, ?E1, ?E2, ?E3 in Ha; rewrite ?E0, ?E1, ?E2, ?E3 in Hb; rewrite ?E0, ?E1, ?E2, ?E3 in Hc; rewrite ?E0, ?E1, ?E2, ?E3 in Ho;
    apply VI in Ha, Hb, Hc, Ho; subst; clear; destruct pa as [a0 a1 a2], pb as [b0 b1 b2], pc as [c0 c1 c2], po as [d0 d1 d2]; vunf; field.
Qed.
Print Assumptions C34_surface_outward.

(** ** C35 subdivision *)
(** Specification: the unordered edges of a mesh, as (min,max) pairs *)
Definition mesh_edge (T : list tet) (a b : Z) : Prop :=
  exists i j k m x y, In (i, j, k, m) T /\ In (x, y) [(i, j); (i, k); (i, m); (j, k); (j, m); (k, m)] /\ a = Z.min x y /\ b = Z.max x y.
Lemma edge_key_minmax x y : edge_key x y = (Z.min x y, Z.max x y).
Proof. unfold edge_key. destruct (Z.ltb_spec x y); f_equal; lia. Qed.
Lemma py_get_nat {A} (l : list A) v : (0 <= v)%Z -> (v < Z.of_nat (length l))%Z -> py_get l v = nth_error l (Z.to_nat v).
Proof. intros H1 H2. unfold py_get. rewrite <- (Z2Nat.id v) at 1 by lia. rewrite py_idx_nat by lia. auto. Qed.
Lemma child_volumes V lut t h c vol : lut_ok V lut -> valid_tet V t -> tet_volume V t = Some vol -> children lut (Z.of_nat (length V)) t h c ->
  let V' := V ++ map (fun x => snd (snd x)) lut in
  tet_volume V' h = Some (vol / 8) /\ map_opt (tet_volume V') c = Some [- vol / 8; vol / 8; vol / 8; vol / 8; vol / 8; vol / 8; vol / 8].
Proof.
  intros Ok Hv Hvol. destruct t as [[[i j] k] m]. intros (ij & ik & im & jk & jm & km & M1 & M2 & M3 & M4 & M5 & M6 & -> & ->). cbv zeta.
  set (V' := V ++ map (fun x : Z * Z * (Z * vec3) => snd (snd x)) lut).
  assert (Old : forall v, In v [i; j; k; m] -> py_get V' v = py_get V v).
  { intros v Hi. pose proof (Hv v Hi) as Hr. rewrite !py_get_nat; unfold V'; rewrite ?app_length; try lia. apply nth_error_app1. lia. }
  assert (New : forall x y z px py, mid_idx lut (Z.of_nat (length V)) x y z -> py_get V x = Some px -> py_get V y = Some py -> py_get V' z = Some (midpoint px py)).
  { intros x y z px py (n & p & -> & E) Ex Ey. assert (Hn : (n < length lut)%nat) by (apply nth_error_Some; unfold entry in E; congruence).
    destruct Ok as [_ Ok]. destruct (Ok _ _ E) as [_ (a & b & Ea & Eb & Ep)]. cbn [fst snd] in *.
    rewrite py_get_nat; unfold V'; rewrite ?app_length, ?map_length; try lia. rewrite nth_error_app2 by lia.
    replace (Z.to_nat (Z.of_nat n + Z.of_nat (length V)) - length V)%nat with n by lia. rewrite (map_nth_error (fun x : Z * Z * (Z * vec3) => snd (snd x)) n lut E). cbn [snd]. f_equal. rewrite Ep.
    unfold edge_key in Ea, Eb. assert (VI : forall x y : vec3, Some x = Some y -> x = y) by congruence.
    destruct (x <? y)%Z; cbn [fst snd] in *; rewrite Ex in *; rewrite Ey in *; apply VI in Ea, Eb; subst; auto.
    unfold midpoint. f_equal. unfold vadd. f_equal; ring. }
  unfold tet_volume in Hvol.
  destruct (py_get V i) as [r0|] eqn:E0; [|discriminate]. destruct (py_get V j) as [r1|] eqn:E1; [|discriminate].
  destruct (py_get V k) as [r2|] eqn:E2; [|discriminate]. destruct (py_get V m) as [r3|] eqn:E3; [|discriminate].
  assert (RI : forall x y : R, Some x = Some y -> x = y) by congruence. apply RI in Hvol. subst vol.
  pose proof (New _ _ _ _ _ M1 E0 E1) as N1. pose proof (New _ _ _ _ _ M2 E0 E2) as N2. pose proof (New _ _ _ _ _ M3 E0 E3) as N3.
  pose proof (New _ _ _ _ _ M4 E1 E2) as N4. pose proof (New _ _ _ _ _ M5 E1 E3) as N5. pose proof (New _ _ _ _ _ M6 E2 E3) as N6.
  pose proof (Old i ltac:(cbn; auto)) as O0. pose proof (Old j ltac:(cbn; auto)) as O1. pose proof (Old k ltac:(cbn; auto)) as O2. pose proof (Old m ltac:(cbn; auto)) as O3.
  rewrite E0 in O0. rewrite E1 in O1. rewrite E2 in O2. rewrite E3 in O3.
  cbn [map_opt]. unfold tet_volume. rewrite N1, N2, N3, N4, N5, N6, O0, O1, O2, O3.
  clear. destruct r0 as [a0 a1 a2], r1 as [b0 b1 b2], r2 as [c0 c1 c2], r3 as [d0 d1 d2]. unfold midpoint. vunf.
  split; [f_equal; field|]. apply f_equal. repeat (apply (f_equal2 (@cons R)); [field|]). reflexivity.
Qed.
(** each input tetrahedron is replaced by 8 whose volumes are vol/8, except one that is inverted (-vol/8);
    one new vertex per unordered edge, at its midpoint; old vertices stay; indices are valid *)
Theorem C35_subdivision_partial : forall V T, valid_mesh (Z.of_nat (length V)) T ->
  exists V' T' P E,
    create_loop_subdivision V T = Some (V', T') /\
    V' = V ++ P /\ length T' = (8 * length T)%nat /\ valid_mesh (Z.of_nat (length V')) T' /\
    NoDup E /\ (forall a b, In (a, b) E <-> mesh_edge T a b) /\ length P = length E /\
    (forall n a b, nth_error E n = Some (a, b) -> exists pa pb, py_get V a = Some pa /\ py_get V b = Some pb /\ nth_error P n = Some (vscale (/ 2) (vadd pa pb))) /\
    (forall vols, compute_volumes V T = Some vols ->
       compute_volumes V' T' = Some (map (fun v => v / 8) vols ++ flat_map (fun v => [- v / 8; v / 8; v / 8; v / 8; v / 8; v / 8; v / 8]) vols)).
Proof.
  intros V T Hv.
  assert (Hvt : forall t, In t T -> valid_tet V t) by (intros [[[i j] k] m] Ht v Hi; eapply Hv; eauto).
  destruct (subdivide_all_ok V (Z.of_nat (length V)) T [] Hvt) as (hs & chs & lut & E & Ok & L1 & L2 & Ch & Ks).
  { split; [constructor|]. intros [|n] x; discriminate. }
  cbn [app] in *.
  assert (Ef : fill_midpoints lut (repeat vzero (length lut)) = Some (map (fun x => snd (snd x)) lut)).
  { apply (fill_ok lut []). intros n x Hx. apply Ok. auto. }
  exists (V ++ map (fun x => snd (snd x)) lut), (hs ++ concat chs), (map (fun x => snd (snd x)) lut), (map fst lut).
  assert (Lc : forall c, In c chs -> length c = 7%nat).
  { intros c Hc. apply In_nth_error in Hc. destruct Hc as (e & He). assert (He' : (e < length T)%nat) by (rewrite <- L2; apply nth_error_Some; congruence).
    destruct (nth_error T e) as [[[[i j] k] m]|] eqn:Et; [|apply nth_error_None in Et; lia]. destruct (Ch e _ Et) as (h & c' & _ & Ec & (?&?&?&?&?&?&_&_&_&_&_&_&_&->)).
    assert (c = _) as -> by (rewrite He in Ec; injection Ec; intros; eassumption). auto. }
  split; [unfold create_loop_subdivision; rewrite E, Ef; auto|]. split; auto. split; [|split; [|split; [apply Ok|split; [|split; [rewrite !map_length; auto|split]]]]].
  - rewrite app_length. assert (Lx : length (concat chs) = (7 * length chs)%nat) by (clear - Lc; induction chs; cbn; auto; rewrite app_length, IHchs by (intros; apply Lc; cbn; auto); rewrite Lc by (cbn; auto); lia). lia.
  - intros i j k m v Ht Hi. rewrite app_length, map_length.
    assert (X : exists e t h c, nth_error T e = Some t /\ children lut (Z.of_nat (length V)) t h c /\ (h = (i, j, k, m) \/ In (i, j, k, m) c)).
    { apply in_app_iff in Ht. destruct Ht as [Ht|Ht].
      - apply In_nth_error in Ht. destruct Ht as (e & He). assert (He' : (e < length T)%nat) by (rewrite <- L1; apply nth_error_Some; congruence).
        destruct (nth_error T e) as [t|] eqn:Et; [|apply nth_error_None in Et; lia]. destruct (Ch e t Et) as (h & c & Eh & _ & C). exists e, t, h, c. split; auto. split; auto. left. assert (TI : forall x y : tet, Some x = Some y -> x = y) by congruence. apply TI. rewrite <- Eh. exact He.
      - apply in_concat in Ht. destruct Ht as (c0 & Hc & Ht). apply In_nth_error in Hc. destruct Hc as (e & He). assert (He' : (e < length T)%nat) by (rewrite <- L2; apply nth_error_Some; congruence).
        destruct (nth_error T e) as [t|] eqn:Et; [|apply nth_error_None in Et; lia]. destruct (Ch e t Et) as (h & c & _ & Ec & C). exists e, t, h, c. split; auto. split; auto. right. assert (TI : forall x y : list tet, Some x = Some y -> x = y) by congruence. replace c with c0; auto. apply TI. rewrite <- Ec. auto. }
    destruct X as (e & t & h & c & Et & C & Hc). apply nth_error_In in Et. specialize (Hvt t Et). destruct t as [[[a b] c0] d].
    destruct C as (ij & ik & im & jk & jm & km & M1 & M2 & M3 & M4 & M5 & M6 & -> & ->).
    assert (B : forall x y z, mid_idx lut (Z.of_nat (length V)) x y z -> (0 <= z < Z.of_nat (length V + length lut))%Z).
    { intros x y z (n & p & -> & En). assert (n < length lut)%nat by (apply nth_error_Some; unfold entry in En; congruence). lia. }
    apply B in M1, M2, M3, M4, M5, M6.
    pose proof (Hvt a ltac:(cbn; auto)). pose proof (Hvt b ltac:(cbn; auto)). pose proof (Hvt c0 ltac:(cbn; auto)). pose proof (Hvt d ltac:(cbn; auto)).
    destruct Hc as [Hc|Hc]; [injection Hc as <- <- <- <-; cbn in Hi; decompose [or] Hi; try contradiction; subst v; lia|].
    cbn in Hc. decompose [or] Hc; try contradiction; match goal with Q : (_, _, _, _) = (i, j, k, m) |- _ => injection Q as <- <- <- <- end; cbn in Hi; decompose [or] Hi; try contradiction; subst v; lia.
  - intros a b. rewrite Ks. cbn [map In]. split.
    + intros [[]|([[[i j] k] m] & x & y & Ht & Hxy & Eab)]. rewrite edge_key_minmax in Eab. injection Eab as -> ->. exists i, j, k, m, x, y. auto.
    + intros (i & j & k & m & x & y & Ht & Hxy & -> & ->). right. exists (i, j, k, m), x, y. rewrite edge_key_minmax. auto.
  - intros n a b Hn. assert (Hx : exists x, nth_error lut n = Some x /\ fst x = (a, b)).
    { rewrite nth_error_map in Hn. destruct (nth_error lut n) as [x|]; [|discriminate]. exists x. split; auto. cbn in Hn. congruence. }
    destruct Hx as (x & Hx & Ex). destruct Ok as [_ Ok]. destruct (Ok n x Hx) as [_ (pa & pb & Ha & Hb & Hp)]. rewrite Ex in *. cbn [fst snd] in *.
    exists pa, pb. split; auto. split; auto. rewrite (map_nth_error (fun x : Z * Z * (Z * vec3) => snd (snd x)) n lut Hx). rewrite Hp. reflexivity.
  - intros vols Hvol. unfold compute_volumes in *. rewrite map_opt_app.
    assert (G : forall T' hs' chs' vols', (forall t, In t T' -> In t T) -> length hs' = length T' -> length chs' = length T' ->
        (forall e t, nth_error T' e = Some t -> exists h c, nth_error hs' e = Some h /\ nth_error chs' e = Some c /\ children lut (Z.of_nat (length V)) t h c) ->
        map_opt (tet_volume V) T' = Some vols' ->
        map_opt (tet_volume (V ++ map (fun x => snd (snd x)) lut)) hs' = Some (map (fun v => v / 8) vols') /\
        map_opt (tet_volume (V ++ map (fun x => snd (snd x)) lut)) (concat chs') = Some (flat_map (fun v => [- v / 8; v / 8; v / 8; v / 8; v / 8; v / 8; v / 8]) vols')).
    { induction T' as [|t T' IH]; intros hs' chs' vols' Sub Lh Lch C Ev.
      - cbn in Ev. injection Ev as <-. destruct hs', chs'; try discriminate. cbn. auto.
      - destruct hs' as [|h hs'], chs' as [|c chs']; try discriminate. cbn [map_opt] in Ev. destruct (tet_volume V t) as [vol|] eqn:Et; [|discriminate].
        destruct (map_opt (tet_volume V) T') as [vs|] eqn:Evs; [|discriminate]. assert (vols' = vol :: vs) as -> by congruence.
        destruct (IH hs' chs' vs) as [I1 I2]; auto. { intros; apply Sub; cbn; auto. } { intros e t' Ht. apply (C (S e) t' Ht). }
        destruct (C 0%nat t eq_refl) as (h' & c' & Eh & Ec & Chl). cbn in Eh, Ec. assert (h = h') as <- by congruence. assert (c = c') as <- by congruence.
        destruct (child_volumes V lut t h c vol Ok (Hvt t (Sub t (or_introl eq_refl))) Et Chl) as [C1 C2].
        cbn [map_opt concat map flat_map]. rewrite map_opt_app. rewrite C1, I1, C2, I2. auto. }
    destruct (G T hs chs vols) as [-> ->]; auto.
Qed.
Print Assumptions C35_subdivision_partial.
(** hence signed volumes are not conserved: only 6/8 of the signed volume remains *)
Theorem C35_volume_refuted : exists V T V' T' vols vols', valid_mesh (Z.of_nat (length V)) T /\
  create_loop_subdivision V T = Some (V', T') /\ compute_volumes V T = Some vols /\ compute_volumes V' T' = Some vols' /\
  Forall (fun v => 0 < v) vols /\ fold_right Rplus 0 vols' <> fold_right Rplus 0 vols /\ Exists (fun v => v < 0) vols'.
Proof.
  set (V := [mkV 0 0 0; mkV 1 0 0; mkV 0 1 0; mkV 0 0 1]). set (T := [(0, 1, 2, 3)%Z] : list tet).
  assert (Hv : valid_mesh (Z.of_nat (length V)) T).
  { intros i j k m v [Ht|[]] Hi. injection Ht as <- <- <- <-. cbn. cbn in Hi. decompose [or] Hi; try contradiction; subst v; lia. }
  destruct (C35_subdivision_partial V T Hv) as (V' & T' & P & E & H1 & H2 & H3 & H4 & H5 & H6 & H7 & H8 & H9).
  assert (Ev : compute_volumes V T = Some [1 / 6]).
  { unfold compute_volumes, T. cbn [map_opt]. change (tet_volume V (0, 1, 2, 3)%Z) with (Some (vdot (vsub (mkV 0 0 1) (mkV 0 0 0)) (vcross (vsub (mkV 1 0 0) (mkV 0 0 0)) (vsub (mkV 0 1 0) (mkV 0 0 0))) / 6)). apply f_equal. apply (f_equal2 (@cons R)); [|reflexivity]. vunf. field. }
  exists V, T, V', T'. eexists. eexists. split; auto. split; [exact H1|]. split; [exact Ev|]. split; [apply H9; exact Ev|]. cbn. split; [|split].
  - apply Forall_cons; [lra|apply Forall_nil].
  - lra.
  - right. left. lra.
Qed.
Print Assumptions C35_volume_refuted.
(** in general: the signed sum after subdivision is 3/4 of the sum before, and the absolute volumes sum to the same *)
Theorem C35_volume_sums_partial : forall V T vols V' T', valid_mesh (Z.of_nat (length V)) T -> compute_volumes V T = Some vols -> create_loop_subdivision V T = Some (V', T') ->
  exists vols', compute_volumes V' T' = Some vols' /\ fold_right Rplus 0 vols' = 3 / 4 * fold_right Rplus 0 vols /\
    fold_right Rplus 0 (map Rabs vols') = fold_right Rplus 0 (map Rabs vols).
Proof.
  intros V T vols V' T' Hv Ev Es. destruct (C35_subdivision_partial V T Hv) as (V2 & T2 & P & E & H1 & _ & _ & _ & _ & _ & _ & _ & H9).
  rewrite Es in H1. assert (V' = V2 /\ T' = T2) as [-> ->] by (split; congruence). eexists. split; [apply H9; exact Ev|].
  assert (A : forall v, Rabs (v / 8) = Rabs v / 8) by (intros; unfold Rdiv; rewrite Rabs_mult, (Rabs_pos_eq (/ 8)) by lra; auto).
  assert (B : forall v, Rabs (- v / 8) = Rabs v / 8) by (intros; rewrite A, Rabs_Ropp; auto).
  change (fold_right Rplus 0) with Rsum. rewrite map_app, !Rsum_app. clear - A B. induction vols as [|v vs [IH1 IH2]].
  - cbn. split; lra.
  - cbn [map flat_map app]. rewrite ?B, ?A. unfold Rsum in *. cbn [fold_right]. split; [clear IH2|clear IH1]; lra.
Qed.
Print Assumptions C35_volume_sums_partial.

(** ** C36 circulator *)
Theorem C36_circulator : forall V T, valid_mesh (Z.of_nat (length V)) T ->
  exists c, circulator_make V T = Some c /\
    forall v, (0 <= v < Z.of_nat (length V))%Z ->
      exists ts, circ_tetrahedra c v = Some ts /\ StronglySorted Z.le ts /\
        forall e, In e ts <-> exists n i j k m, e = Z.of_nat n /\ nth_error T n = Some (i, j, k, m) /\ In v [i; j; k; m].
Proof.
  intros V T Hv. destruct (circulator_ok V T) as (c & Ec & Hc). { intros [[[i j] k] m] v Ht Hi. eapply Hv; eauto. }
  exists c. split; auto. intros v Hr. eexists. split; [apply Hc; auto|]. split.
  - pose proof (v2t_lex T) as S. clear - S. induction S as [|[a b] L S IH F]; [constructor|]. unfold eq_part in *. cbn [filter fst]. destruct (Z.eqb_spec a v); auto. cbn [map snd]. constructor; auto.
    rewrite Forall_forall in *. intros z Hz. apply in_map_iff in Hz. destruct Hz as ([a' b'] & <- & Hz). apply filter_In in Hz. destruct Hz as [Hz Eq]. apply F in Hz. cbn in *. apply Z.eqb_eq in Eq. lia.
  - intros e. rewrite in_map_iff. split.
    + intros ([a b] & <- & H). apply filter_In in H. destruct H as [H Eq]. cbn in Eq. apply Z.eqb_eq in Eq. subst a. apply in_v2t in H. destruct H as (n & [[[i j] k] m] & -> & Ht & Hi).
      exists n, i, j, k, m. auto.
    + intros (n & i & j & k & m & -> & Ht & Hi). exists (v, Z.of_nat n). split; auto. apply filter_In. split; [|cbn; apply Z.eqb_refl]. apply in_v2t. exists n, (i, j, k, m). auto.
Qed.
Print Assumptions C36_circulator.
(** each incident tetrahedron is listed once when the four nodes of a tetrahedron are distinct *)
Theorem C36_circulator_once : forall V T c v ts, valid_mesh (Z.of_nat (length V)) T -> (forall i j k m, In (i, j, k, m) T -> NoDup [i; j; k; m]) ->
  circulator_make V T = Some c -> (0 <= v < Z.of_nat (length V))%Z -> circ_tetrahedra c v = Some ts -> StronglySorted Z.lt ts.
Proof.
  intros V T c v ts Hv Hd Ec Hr Ets. destruct (circulator_ok V T) as (c' & Ec' & Hc). { intros [[[i j] k] m] x Ht Hi. eapply Hv; eauto. }
  rewrite Ec in Ec'. assert (c = c') as <- by congruence. rewrite Hc in Ets by auto. assert (ts = map snd (eq_part v (v2t T))) as -> by congruence.
  assert (ND : NoDup (v2t T)).
  { unfold v2t. eapply Permutation_NoDup; [apply isort_perm|]. rewrite <- flat_map_concat_map. apply NoDup_flat_map; [apply NoDup_enum| |].
    - intros [e [[[i j] k] m]] He. cbn [fst snd v2t_rows]. apply nth_error_enum in He. destruct He as [_ He]. apply nth_error_In in He. specialize (Hd _ _ _ _ He).
      inversion Hd as [|? ? A1 Hd1]; subst. inversion Hd1 as [|? ? A2 Hd2]; subst. inversion Hd2 as [|? ? A3 Hd3]; subst. cbn in A1, A2, A3.
      repeat (apply NoDup_cons; [cbn; intros H; decompose [or] H; try contradiction; match goal with Q : (_, _) = (_, _) |- _ => injection Q as Q; tauto end|]); apply NoDup_nil.
    - intros [e t] [e' t'] [a z] Hx Hy H H'. cbn [fst snd] in *.
      assert (Y : forall n t, In (a, z) (v2t_rows n t) -> z = Z.of_nat n) by (clear; intros n [[[i j] k] m] H; cbn in H; decompose [or] H; try contradiction; congruence).
      apply Y in H. apply Y in H'. assert (e = e') as <- by lia. apply nth_error_enum in Hx, Hy. destruct Hx as [_ Hx], Hy as [_ Hy]. rewrite Hx in Hy. assert (t = t') as <- by congruence. auto. }
  pose proof (v2t_lex T) as S. clear - S ND. induction S as [|[a b] L S IH F]; [constructor|]. inversion ND; subst. unfold eq_part in *. cbn [filter fst]. destruct (Z.eqb_spec a v); [|apply IH; auto]. subst a. cbn [map snd]. constructor; [apply IH; auto|].
  rewrite Forall_forall in *. intros z Hz. apply in_map_iff in Hz. destruct Hz as ([a' b'] & <- & Hz). apply filter_In in Hz. destruct Hz as [Hz Eq]. cbn in Eq |- *. apply Z.eqb_eq in Eq. subst a'. pose proof (F _ Hz) as Fz. cbn in Fz.
  assert (b <> b') by (intros ->; contradiction). lia.
Qed.
Print Assumptions C36_circulator_once.
Definition two_tets : list tet := [(0, 1, 2, 3); (1, 2, 3, 4)]%Z.
Definition five_points : list vec3 := [mkV 0 0 0; mkV 1 0 0; mkV 0 1 0; mkV 0 0 1; mkV 1 1 1].
Example C36_nonvacuous : valid_mesh (Z.of_nat (length five_points)) two_tets /\ exists c, circulator_make five_points two_tets = Some c /\ circ_tetrahedra c 2 = Some [0; 1]%Z /\ circ_tetrahedra c 4 = Some [1]%Z.
Proof.
  split; [|eexists; split; [reflexivity|split; reflexivity]].
  intros i j k m v [Ht|[Ht|[]]] Hi; injection Ht as <- <- <- <-; cbn in *; decompose [or] Hi; try contradiction; subst v; lia.
Qed.
(** C34's hypothesis holds for two tetrahedra glued along a face; the shared face is found *)
Example C34_nonvacuous : at_most_two two_tets /\ N_at (compute_neighbors two_tets) 0 0 = Some 1%Z /\ N_at (compute_neighbors two_tets) 1 3 = Some 0%Z /\ length (compute_surface two_tets (compute_neighbors two_tets)) = 6%nat.
Proof.
  split; [|split; [reflexivity|split; reflexivity]].
  assert (S : forall s f, face_of two_tets s f -> In (s, isort Z.leb f) [((0, 0)%nat, [1; 2; 3]%Z); ((0, 1)%nat, [0; 2; 3]%Z); ((0, 2)%nat, [0; 1; 3]%Z); ((0, 3)%nat, [0; 1; 2]%Z); ((1, 0)%nat, [2; 3; 4]%Z); ((1, 1)%nat, [1; 3; 4]%Z); ((1, 2)%nat, [1; 2; 4]%Z); ((1, 3)%nat, [1; 2; 3]%Z)]).
  { intros [e v] f (t & Ht & Hv & ->). cbn [fst snd] in *. destruct e as [|[|[|e]]]; [| |discriminate|discriminate]; cbn in Ht; injection Ht as <-;
      (destruct v as [|[|[|[|v]]]]; [| | | |lia]); cbn; auto 10. }
  intros s1 s2 s3 (f1 & f2 & F1 & F2 & P12) (f1' & f3 & F1' & F3 & P13).
  apply S in F1, F2, F1', F3. apply isort_Z_eq in P12, P13. rewrite <- P12 in F2. rewrite <- P13 in F3. clear P12 P13 S.
  set (l1 := isort Z.leb f1) in *. set (l1' := isort Z.leb f1') in *. clearbody l1 l1'. cbn in F1, F2, F1', F3.
  decompose [or] F1; try contradiction; decompose [or] F1'; try contradiction; try congruence; decompose [or] F2; try contradiction; try congruence; decompose [or] F3; try contradiction; try congruence;
  repeat match goal with Q : (_, _) = (_, _) |- _ => injection Q; clear Q; intros; subst end; auto; try discriminate.
Qed.
