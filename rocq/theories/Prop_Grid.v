(** Property theorems C23-C27 and C69: the regular grid (rainbow/geometry/grid3.py).
    [grid_make] models Grid.__init__, the other functions carry the API names. *)
From Verif Require Import Base BvhModel BvhSpec BvhProofs KdopProofs GridModel GridProofs.
From Coquelicot Require Import Coquelicot.
Open Scope R_scope.

(** ** Specification vocabulary *)
(** a grid as returned by the constructor for a box with positive extent, possibly with values filled in *)
Definition grid_of (lo hi : vec3) (I J K : Z) (g : grid) : Prop :=
  vx lo < vx hi /\ vy lo < vy hi /\ vz lo < vz hi /\
  exists g0, grid_make lo hi I J K = Some g0 /\ exists vs, g = mkG (g_min g0) (g_max g0) (g_I g0) (g_J g0) (g_K g0) (g_spacing g0) vs.
(** (i,j,k) is a node *)
Definition is_node (I J K i j k : Z) : Prop := (0 <= i < I /\ 0 <= j < J /\ 0 <= k < K)%Z.
(** coordinate number i of n equally spaced ones from a to b *)
Definition axis_coord (a b : R) (n i : Z) : R := a + (b - a) * IZR i / IZR (n - 1).
(** v(i,j,k) are the node values *)
Definition node_values (g : grid) (v : Z -> Z -> Z -> R) : Prop :=
  forall i j k, is_node (g_I g) (g_J g) (g_K g) i j k -> get_node_value g i j k = Some (v i j k).
Definition inside_box (p lo hi : vec3) : Prop :=
  vx lo <= vx p <= vx hi /\ vy lo <= vy p <= vy hi /\ vz lo <= vz p <= vz hi.
(** distance of a real to the interval [a,b] *)
Definition interval_dist (x a b : R) : R := Rmax 0 (Rmax (a - x) (x - b)).

Lemma grid_of_ok lo hi I J K g : grid_of lo hi I J K g ->
  g_min g = lo /\ g_max g = hi /\ g_I g = I /\ g_J g = J /\ g_K g = K /\ grid_ok g /\
  g_spacing g = mkV ((vx hi - vx lo) / IZR (I - 1)) ((vy hi - vy lo) / IZR (J - 1)) ((vz hi - vz lo) / IZR (K - 1)).
Proof.
  intros (Hx & Hy & Hz & g0 & E & vs & ->). pose proof E as E0. apply grid_make_inv in E. cbn [g_min g_max g_I g_J g_K g_spacing]. destruct E as (E1 & E2 & E3 & E4 & E5 & _ & _ & _ & _ & _ & _ & _ & H).
  repeat match goal with |- _ /\ _ => split end; auto.
  unfold grid_make in E0. destruct (any_lt hi lo), (I <? 2)%Z, (J <? 2)%Z, (K <? 2)%Z; try discriminate. injection E0 as <-. reflexivity.
Qed.
Lemma coord_axis lo hi I J K g i j k : grid_of lo hi I J K g ->
  get_node_coord g i j k = mkV (axis_coord (vx lo) (vx hi) I i) (axis_coord (vy lo) (vy hi) J j) (axis_coord (vz lo) (vz hi) K k).
Proof.
  intros G. destruct (grid_of_ok _ _ _ _ _ _ G) as (E1 & E2 & E3 & E4 & E5 & O & Es).
  unfold get_node_coord, axis_coord. rewrite E1, Es. unfold vadd; cbn.
  destruct O as (HI & HJ & HK & _). rewrite E3 in HI. rewrite E4 in HJ. rewrite E5 in HK. f_equal; field; apply not_0_IZR; lia.
Qed.

(** ** C23 *)
Theorem C23_linear_index_bijection : forall lo hi I J K g, grid_of lo hi I J K g ->
  (forall i j k, is_node I J K i j k -> (0 <= get_linear_index g i j k < I * J * K)%Z) /\
  (forall i j k i' j' k', is_node I J K i j k -> is_node I J K i' j' k' ->
     get_linear_index g i j k = get_linear_index g i' j' k' -> i = i' /\ j = j' /\ k = k') /\
  (forall n, (0 <= n < I * J * K)%Z -> exists i j k, is_node I J K i j k /\ get_linear_index g i j k = n) /\
  (forall i j k, is_valid_node_index g i j k = true <-> is_node I J K i j k).
Proof.
  intros lo hi I J K g G. destruct (grid_of_ok _ _ _ _ _ _ G) as (E1 & E2 & <- & <- & <- & (HI & HJ & HK & _) & Es).
  split; [|split; [|split]].
  - intros i j k (Hi & Hj & Hk). apply lin_range; auto.
  - intros i j k i' j' k' (Hi & Hj & Hk) (Hi' & Hj' & Hk') E. eapply lin_inj; eauto.
  - intros n Hn. destruct (lin_surj g n HI HJ Hn) as (i & j & k & H1 & H2 & H3 & H4). exists i, j, k. split; auto. repeat split; tauto.
  - intros. apply valid_index.
Qed.
Print Assumptions C23_linear_index_bijection.
Theorem C23_node_coords : forall lo hi I J K g i j k, grid_of lo hi I J K g ->
  get_node_coord g i j k = mkV (axis_coord (vx lo) (vx hi) I i) (axis_coord (vy lo) (vy hi) J j) (axis_coord (vz lo) (vz hi) K k) /\
  get_node_coord g 0 0 0 = lo /\ get_node_coord g (I - 1) (J - 1) (K - 1) = hi.
Proof.
  intros lo hi I J K g i j k G. split; [eapply coord_axis; eauto|].
  rewrite !(coord_axis _ _ _ _ _ _ _ _ _ G). destruct (grid_of_ok _ _ _ _ _ _ G) as (E1 & E2 & E3 & E4 & E5 & (HI & HJ & HK & _) & Es).
  rewrite E3 in HI. rewrite E4 in HJ. rewrite E5 in HK.
  unfold axis_coord. split; apply vec3_eq; cbn; field; apply not_0_IZR; lia.
Qed.
Print Assumptions C23_node_coords.
Theorem C23_eval_on_grid : forall lo hi I J K g f, grid_of lo hi I J K g ->
  exists g', eval_on_grid g f = Some g' /\ grid_of lo hi I J K g' /\
    forall i j k, is_node I J K i j k -> get_node_value g' i j k = Some (f (get_node_coord g' i j k)).
Proof.
  intros lo hi I J K g f G. destruct (grid_of_ok _ _ _ _ _ _ G) as (E1 & E2 & E3 & E4 & E5 & (HI & HJ & HK & _) & Es).
  destruct (node_loop_store g (fun i j k => f (get_node_coord g i j k)) 0 HI HJ HK) as (l & E & L & S).
  eexists. unfold eval_on_grid. rewrite E. split; [reflexivity|]. split.
  - destruct G as (Hx & Hy & Hz & g0 & Eg & vs & ->). cbn. split; auto. split; auto. split; auto. exists g0. split; auto. eexists; reflexivity.
  - intros i j k (Hi & Hj & Hk). subst I J K. unfold get_node_value, get_linear_index; cbn. apply (S i j k); auto.
Qed.
Print Assumptions C23_eval_on_grid.
Theorem C23_nodes_array : forall lo hi I J K g, grid_of lo hi I J K g ->
  exists nodes, get_nodes_array g = Some nodes /\ Z.of_nat (length nodes) = (I * J * K)%Z /\
    forall i j k, is_node I J K i j k -> py_get nodes (get_linear_index g i j k) = Some (get_node_coord g i j k).
Proof.
  intros lo hi I J K g G. destruct (grid_of_ok _ _ _ _ _ _ G) as (E1 & E2 & E3 & E4 & E5 & (HI & HJ & HK & _) & Es).
  destruct (node_loop_store g (fun i j k => get_node_coord g i j k) vzero HI HJ HK) as (l & E & L & S).
  exists l. unfold get_nodes_array. rewrite E. subst I J K. repeat split; auto. intros i j k (Hi & Hj & Hk). apply S; auto.
Qed.
Print Assumptions C23_nodes_array.
Definition ex_lo := mkV 1 1 1.
Definition ex_hi := mkV 3 3 3.
Lemma ex_grid : exists g, grid_make ex_lo ex_hi 2 3 4 = Some g /\ grid_of ex_lo ex_hi 2 3 4 g.
Proof.
  destruct (grid_make_some ex_lo ex_hi 2 3 4) as (g & E & E1 & E2 & E3 & E4 & E5 & E6 & _); cbn; try lra; try lia.
  exists g. split; auto. unfold grid_of; cbn. repeat (split; [lra|]). exists g. split; auto. exists (g_values g). destruct g; reflexivity.
Qed.
Example C23_nonvacuous : exists g, grid_of ex_lo ex_hi 2 3 4 g /\ is_node 2 3 4 1 2 3 /\ get_linear_index g 1 2 3 = 23%Z.
Proof.
  destruct ex_grid as (g & E & G). exists g. split; auto. split; [unfold is_node; lia|].
  destruct (grid_of_ok _ _ _ _ _ _ G) as (_ & _ & E3 & E4 & E5 & _). unfold get_linear_index. rewrite E3, E4. reflexivity.
Qed.
(** degenerate input is rejected *)
Theorem C23_constructor_rejects : forall lo hi I J K,
  grid_make lo hi I J K = None <-> (vx hi < vx lo \/ vy hi < vy lo \/ vz hi < vz lo \/ (I < 2)%Z \/ (J < 2)%Z \/ (K < 2)%Z).
Proof.
  intros. unfold grid_make, any_lt.
  destruct (Rltb_spec (vx hi) (vx lo)), (Rltb_spec (vy hi) (vy lo)), (Rltb_spec (vz hi) (vz lo)), (Z.ltb_spec I 2), (Z.ltb_spec J 2), (Z.ltb_spec K 2); cbn; split; intros; try discriminate; auto; try tauto; try lra; try lia.
  all: decompose [or] H2; lia || lra.
Qed.
Print Assumptions C23_constructor_rejects.

(** ** C24 *)
Lemma axis_scale a b n x : a < b -> (2 <= n)%Z -> forall i,
  ((IZR i <= (x - a) / ((b - a) / IZR (n - 1)) <-> axis_coord a b n i <= x) /\
   ((x - a) / ((b - a) / IZR (n - 1)) <= IZR i <-> x <= axis_coord a b n i)).
Proof.
  intros Hab Hn i. assert (Hn1 : 0 < IZR (n - 1)) by (apply IZR_lt; lia). unfold axis_coord.
  set (N := IZR (n - 1)) in *. set (s := (b - a) / N).
  assert (Hs : 0 < s) by (apply Rdiv_lt_0_compat; lra).
  replace ((b - a) * IZR i / N) with (s * IZR i) by (unfold s; field; lra).
  assert (E : (x - a) = s * ((x - a) / s)) by (field; lra). set (X := (x - a) / s) in *.
  split; split; intros; nra.
Qed.
Lemma axis_coord_mono a b n i i' : a < b -> (2 <= n)%Z -> (i <= i')%Z -> axis_coord a b n i <= axis_coord a b n i'.
Proof.
  intros Hab Hn Hi. unfold axis_coord. assert (Hn1 : 0 < IZR (n - 1)) by (apply IZR_lt; lia). apply IZR_le in Hi.
  unfold Rdiv. apply Rplus_le_compat_l. apply Rmult_le_compat_r; [apply Rlt_le, Rinv_0_lt_compat; auto|]. nra.
Qed.
Lemma axis_ends a b n : (2 <= n)%Z -> axis_coord a b n 0 = a /\ axis_coord a b n (n - 1) = b.
Proof. intros. unfold axis_coord. split; field; apply not_0_IZR; lia. Qed.
Lemma adm_bracket a b n x i : a < b -> (2 <= n)%Z -> admissible ((x - a) / ((b - a) / IZR (n - 1))) n i ->
  (a <= x <= b -> axis_coord a b n i <= x <= axis_coord a b n (i + 1)) /\
  (forall i', (0 <= i' <= n - 2)%Z -> interval_dist x (axis_coord a b n i) (axis_coord a b n (i + 1)) <= interval_dist x (axis_coord a b n i') (axis_coord a b n (i' + 1))).
Proof.
  intros Hab Hn (A1 & A2 & A3). destruct (axis_ends a b n Hn) as [E0 E1].
  assert (B2 : axis_coord a b n i <= x \/ i = 0%Z) by (destruct A2 as [A2|]; auto; left; apply (axis_scale a b n x Hab Hn i); auto).
  assert (B3 : x <= axis_coord a b n (i + 1) \/ i = (n - 2)%Z).
  { destruct A3 as [A3|]; auto; left; apply (axis_scale a b n x Hab Hn (i + 1)); rewrite plus_IZR; auto. }
  split.
  - intros Hx. split.
    + destruct B2 as [|E]; auto. rewrite E, E0; lra.
    + destruct B3 as [|E]; auto. replace (i + 1)%Z with (n - 1)%Z by lia. lra.
  - intros i' Hi'. unfold interval_dist.
    pose proof (axis_coord_mono a b n i (i + 1) Hab Hn ltac:(lia)).
    pose proof (axis_coord_mono a b n i' (i' + 1) Hab Hn ltac:(lia)).
    destruct (Z.lt_trichotomy i i') as [L|[->|L]]; [| lra |].
    + pose proof (axis_coord_mono a b n (i + 1) i' Hab Hn ltac:(lia)).
      assert (x <= axis_coord a b n (i + 1)) by (destruct B3; auto; lia).
      assert (axis_coord a b n i - x <= axis_coord a b n i' - x) by lra.
      unfold Rmax; repeat destruct Rle_dec; lra.
    + pose proof (axis_coord_mono a b n (i' + 1) i Hab Hn ltac:(lia)).
      assert (axis_coord a b n i <= x) by (destruct B2; auto; lia).
      unfold Rmax; repeat destruct Rle_dec; lra.
Qed.
Lemma cell_adm lo hi I J K g p : grid_of lo hi I J K g ->
  let '(i, j, k) := get_enclosing_cell_idx g p in
  admissible ((vx p - vx lo) / ((vx hi - vx lo) / IZR (I - 1))) I i /\
  admissible ((vy p - vy lo) / ((vy hi - vy lo) / IZR (J - 1))) J j /\
  admissible ((vz p - vz lo) / ((vz hi - vz lo) / IZR (K - 1))) K k.
Proof.
  intros G. destruct (grid_of_ok _ _ _ _ _ _ G) as (E1 & E2 & E3 & E4 & E5 & (HI & HJ & HK & _) & Es).
  pose proof (cell_range g p HI HJ HK) as C. unfold sx, sy, sz in C. rewrite E1, E3, E4, E5, Es in C. cbn [vx vy vz] in C. exact C.
Qed.
Lemma grid_of_pos lo hi I J K g : grid_of lo hi I J K g -> vx lo < vx hi /\ vy lo < vy hi /\ vz lo < vz hi /\ (2 <= I)%Z /\ (2 <= J)%Z /\ (2 <= K)%Z.
Proof. intros G. destruct (grid_of_ok _ _ _ _ _ _ G) as (E1 & E2 & <- & <- & <- & (HI & HJ & HK & _) & Es). destruct G as (Hx & Hy & Hz & _). auto 10. Qed.
Theorem C24_enclosing_cell : forall lo hi I J K g p i j k, grid_of lo hi I J K g -> get_enclosing_cell_idx g p = (i, j, k) ->
  (0 <= i <= I - 2 /\ 0 <= j <= J - 2 /\ 0 <= k <= K - 2)%Z /\
  (inside_box p lo hi -> inside_box p (get_node_coord g i j k) (get_node_coord g (i + 1) (j + 1) (k + 1))).
Proof.
  intros lo hi I J K g p i j k G E. pose proof (cell_adm lo hi I J K g p G) as C. rewrite E in C. destruct C as (Cx & Cy & Cz).
  destruct (grid_of_pos _ _ _ _ _ _ G) as (Hx & Hy & Hz & HI & HJ & HK).
  split; [destruct Cx, Cy, Cz; auto|]. intros (Px & Py & Pz). rewrite !(coord_axis _ _ _ _ _ _ _ _ _ G). unfold inside_box; cbn.
  split; [|split]; eapply adm_bracket; eauto.
Qed.
Print Assumptions C24_enclosing_cell.
Theorem C24_closest_cell : forall lo hi I J K g p i j k, grid_of lo hi I J K g -> get_enclosing_cell_idx g p = (i, j, k) ->
  forall i' j' k', (0 <= i' <= I - 2 /\ 0 <= j' <= J - 2 /\ 0 <= k' <= K - 2)%Z ->
  let a := get_node_coord g i j k in let b := get_node_coord g (i + 1) (j + 1) (k + 1) in
  let a' := get_node_coord g i' j' k' in let b' := get_node_coord g (i' + 1) (j' + 1) (k' + 1) in
  interval_dist (vx p) (vx a) (vx b) <= interval_dist (vx p) (vx a') (vx b') /\
  interval_dist (vy p) (vy a) (vy b) <= interval_dist (vy p) (vy a') (vy b') /\
  interval_dist (vz p) (vz a) (vz b) <= interval_dist (vz p) (vz a') (vz b').
Proof.
  intros lo hi I J K g p i j k G E i' j' k' (Hi & Hj & Hk). pose proof (cell_adm lo hi I J K g p G) as C. rewrite E in C. destruct C as (Cx & Cy & Cz).
  destruct (grid_of_pos _ _ _ _ _ _ G) as (Hx & Hy & Hz & HI & HJ & HK).
  cbv zeta. rewrite !(coord_axis _ _ _ _ _ _ _ _ _ G). cbn.
  split; [|split]; eapply adm_bracket; eauto.
Qed.
Print Assumptions C24_closest_cell.
Example C24_nonvacuous : exists g, grid_of ex_lo ex_hi 2 3 4 g /\ get_enclosing_cell_idx g (mkV 2 2 2) = (0, 1, 1)%Z /\ inside_box (mkV 2 2 2) ex_lo ex_hi.
Proof.
  destruct ex_grid as (g & E & G). exists g. split; auto. split; [|unfold inside_box; cbn; lra].
  destruct (grid_of_ok _ _ _ _ _ _ G) as (E1 & E2 & E3 & E4 & E5 & _ & Es).
  unfold get_enclosing_cell_idx. rewrite E1, E3, E4, E5, Es. cbn.
  rewrite (floor_unique _ 0), (floor_unique _ 1), (floor_unique _ 1) by (cbn; lra). reflexivity.
Qed.

(** ** C25 *)
(** a trilinear function: a polynomial of degree at most one in each variable *)
Definition trilin (c0 cx cy cz cxy cxz cyz cxyz : R) (p : vec3) : R :=
  c0 + cx * vx p + cy * vy p + cz * vz p + cxy * vx p * vy p + cxz * vx p * vz p + cyz * vy p * vz p + cxyz * vx p * vy p * vz p.
Lemma node_values_has g v : node_values g v <-> has_values g v.
Proof. unfold node_values, has_values, is_node. split; intros H i j k; [intros; apply H; auto|intros (A & B & C); auto]. Qed.
Lemma sx_coord g i j k : grid_ok g -> sx g (get_node_coord g i j k) = IZR i /\ sy g (get_node_coord g i j k) = IZR j /\ sz g (get_node_coord g i j k) = IZR k.
Proof.
  intros (_ & _ & _ & Sx & Sy & Sz & _). unfold sx, sy, sz, get_node_coord, vadd; cbn. split; [|split]; field; lra.
Qed.
Lemma adm_node n i : (2 <= n)%Z -> (0 <= i < n)%Z -> exists c, admissible (IZR i) n c /\ (c = i \/ c = (i - 1)%Z).
Proof.
  intros Hn Hi. destruct (Z.eq_dec i (n - 1)) as [E|E].
  - exists (i - 1)%Z. split; auto. unfold admissible. rewrite minus_IZR. split; [lia|]. split; left; lra.
  - exists i. split; auto. unfold admissible. split; [lia|]. split; left; lra.
Qed.
Theorem C25_total : forall lo hi I J K g v p, grid_of lo hi I J K g -> node_values g v -> exists r, get_value g p = Some r.
Proof.
  intros lo hi I J K g v p G Hv. destruct (grid_of_ok _ _ _ _ _ _ G) as (_ & _ & _ & _ & _ & O & _).
  eexists. apply get_value_cell; auto. apply node_values_has; eauto.
Qed.
Print Assumptions C25_total.
Theorem C25_node_value : forall lo hi I J K g v i j k, grid_of lo hi I J K g -> node_values g v -> is_node I J K i j k ->
  get_value g (get_node_coord g i j k) = Some (v i j k).
Proof.
  intros lo hi I J K g v i j k G Hv (Hi & Hj & Hk). destruct (grid_of_ok _ _ _ _ _ _ G) as (_ & _ & E3 & E4 & E5 & O & _).
  apply node_values_has in Hv. rewrite (get_value_cell g v) by auto. destruct (sx_coord g i j k O) as (-> & -> & ->).
  set (p := get_node_coord g i j k). pose proof O as (HI & HJ & HK & _). pose proof (cell_range g p HI HJ HK) as C.
  destruct (sx_coord g i j k O) as (X & Y & W). fold p in X, Y, W. rewrite X, Y, W in C.
  destruct (get_enclosing_cell_idx g p) as [[ci cj] ck]. destruct C as (Cx & Cy & Cz).
  rewrite <- E3 in Hi. rewrite <- E4 in Hj. rewrite <- E5 in Hk.
  destruct (adm_node _ _ HI Hi) as (ci' & Ax & Hx). destruct (adm_node _ _ HJ Hj) as (cj' & Ay & Hy). destruct (adm_node _ _ HK Hk) as (ck' & Az & Hz).
  f_equal. rewrite (cell_agree v _ _ _ _ _ _ _ _ _ _ _ _ Cx Ax Cy Ay Cz Az). unfold cell_value, trilinear.
  destruct Hx as [->| ->], Hy as [->| ->], Hz as [->| ->]; rewrite ?minus_IZR, ?Z.sub_add; ring.
Qed.
Print Assumptions C25_node_value.
Theorem C25_trilinear_exact : forall lo hi I J K g c0 cx cy cz cxy cxz cyz cxyz p, grid_of lo hi I J K g ->
  (forall i j k, is_node I J K i j k -> get_node_value g i j k = Some (trilin c0 cx cy cz cxy cxz cyz cxyz (get_node_coord g i j k))) ->
  get_value g p = Some (trilin c0 cx cy cz cxy cxz cyz cxyz p).
Proof.
  intros lo hi I J K g c0 cx cy cz cxy cxz cyz cxyz p G Hv. destruct (grid_of_ok _ _ _ _ _ _ G) as (_ & _ & E3 & E4 & E5 & O & _).
  set (v := fun i j k => trilin c0 cx cy cz cxy cxz cyz cxyz (get_node_coord g i j k)).
  assert (Hh : has_values g v) by (intros i j k Hi Hj Hk; apply Hv; rewrite E3, E4, E5 in *; repeat split; lia).
  rewrite (get_value_cell g v) by auto. f_equal. destruct (get_enclosing_cell_idx g p) as [[i j] k].
  destruct O as (_ & _ & _ & Sx & Sy & Sz & _).
  assert (Px : vx p = vx (g_min g) + vx (g_spacing g) * sx g p) by (unfold sx; field; lra).
  assert (Py : vy p = vy (g_min g) + vy (g_spacing g) * sy g p) by (unfold sy; field; lra).
  assert (Pz : vz p = vz (g_min g) + vz (g_spacing g) * sz g p) by (unfold sz; field; lra).
  unfold cell_value, trilinear, v, trilin, get_node_coord, vadd; cbn [vx vy vz]. rewrite Px, Py, Pz, !plus_IZR. ring.
Qed.
Print Assumptions C25_trilinear_exact.
Theorem C25_between_corners : forall lo hi I J K g v p i j k m M r, grid_of lo hi I J K g -> node_values g v ->
  inside_box p lo hi -> get_enclosing_cell_idx g p = (i, j, k) ->
  (forall i' j' k', (i <= i' <= i + 1)%Z -> (j <= j' <= j + 1)%Z -> (k <= k' <= k + 1)%Z -> m <= v i' j' k' <= M) ->
  get_value g p = Some r -> m <= r <= M.
Proof.
  intros lo hi I J K g v p i j k m M r G Hv Hp E HM Er. destruct (grid_of_ok _ _ _ _ _ _ G) as (E1 & E2 & E3 & E4 & E5 & O & Es).
  destruct (C24_enclosing_cell _ _ _ _ _ _ _ _ _ _ G E) as [_ B]. specialize (B Hp). rewrite (get_value_cell g v) in Er by (auto; apply node_values_has; auto).
  rewrite E in Er. injection Er as <-. destruct O as (_ & _ & _ & Sx & Sy & Sz & _).
  destruct B as (Bx & By & Bz). unfold get_node_coord, vadd in Bx, By, Bz; cbn in Bx, By, Bz. rewrite plus_IZR in Bx, By, Bz.
  assert (Px : vx p = vx (g_min g) + vx (g_spacing g) * sx g p) by (unfold sx; field; lra).
  assert (Py : vy p = vy (g_min g) + vy (g_spacing g) * sy g p) by (unfold sy; field; lra).
  assert (Pz : vz p = vz (g_min g) + vz (g_spacing g) * sz g p) by (unfold sz; field; lra).
  assert (Hx : 0 <= sx g p - IZR i <= 1) by (rewrite Px in Bx; split; nra).
  assert (Hy : 0 <= sy g p - IZR j <= 1) by (rewrite Py in By; split; nra).
  assert (Hz : 0 <= sz g p - IZR k <= 1) by (rewrite Pz in Bz; split; nra).
  unfold cell_value, trilinear. repeat apply lerp_between; auto; apply HM; lia.
Qed.
Print Assumptions C25_between_corners.

(** *** continuity *)
Lemma cont_cell v g c p : grid_ok g -> forall eps, 0 < eps -> exists d, 0 < d /\ forall q, Rabs (vx q - vx p) < d -> Rabs (vy q - vy p) < d -> Rabs (vz q - vz p) < d ->
  Rabs (cell_value v (sx g q) (sy g q) (sz g q) c - cell_value v (sx g p) (sy g p) (sz g p) c) < eps.
Proof.
  intros _ eps He. destruct c as [[i j] k].
  pose (X := fun t : R * R * R => fst (fst t)). pose (Y := fun t : R * R * R => snd (fst t)). pose (W := fun t : R * R * R => snd t).
  pose (F := fun t : R * R * R => cell_value v ((X t - vx (g_min g)) / vx (g_spacing g)) ((Y t - vy (g_min g)) / vy (g_spacing g)) ((W t - vz (g_min g)) / vz (g_spacing g)) (i, j, k)).
  assert (CX : forall t, continuous X t) by (intros t; apply (continuous_comp fst fst); [apply continuous_fst|apply continuous_fst]).
  assert (CY : forall t, continuous Y t) by (intros t; apply (continuous_comp fst snd); [apply continuous_fst|apply continuous_snd]).
  assert (CW : forall t, continuous W t) by (intros t; apply continuous_snd).
  assert (Ca : forall (f h : R * R * R -> R) t, continuous f t -> continuous h t -> continuous (fun s => f s + h s) t) by (intros; apply (@continuous_plus _ R_AbsRing R_NormedModule f h); auto).
  assert (Cm : forall (f h : R * R * R -> R) t, continuous f t -> continuous h t -> continuous (fun s => f s * h s) t) by (intros; apply (@continuous_mult _ R_AbsRing f h); auto).
  assert (Cs : forall (f h : R * R * R -> R) t, continuous f t -> continuous h t -> continuous (fun s => f s - h s) t) by (intros; apply (@continuous_minus _ R_AbsRing R_NormedModule f h); auto).
  assert (Cc : forall (c : R) (t : R * R * R), continuous (fun _ => c) t) by (intros; apply continuous_const).
  assert (Cl : forall (f h r : R * R * R -> R) t, continuous f t -> continuous h t -> continuous r t -> continuous (fun s => (h s - f s) * r s + f s) t).
  { intros f h r t Hf Hh Hr. exact (Ca _ _ t (Cm _ _ t (Cs _ _ t Hh Hf) Hr) Hf). }
  assert (Cq : forall (f : R * R * R -> R) a b c t, continuous f t -> continuous (fun s => (f s - a) / b - c) t).
  { intros f a b c t Hf. exact (Cs _ _ t (Cm _ _ t (Cs _ _ t Hf (Cc a t)) (Cc (/ b) t)) (Cc c t)). }
  assert (CF : continuous F (vx p, vy p, vz p)).
  { unfold F, cell_value, trilinear.
    pose proof (Cq X (vx (g_min g)) (vx (g_spacing g)) (IZR i) (vx p, vy p, vz p) (CX _)) as QX.
    pose proof (Cq Y (vy (g_min g)) (vy (g_spacing g)) (IZR j) (vx p, vy p, vz p) (CY _)) as QY.
    pose proof (Cq W (vz (g_min g)) (vz (g_spacing g)) (IZR k) (vx p, vy p, vz p) (CW _)) as QW.
    set (t0 := (vx p, vy p, vz p)) in *.
    pose proof (fun a b => Cl _ _ _ t0 (Cc a t0) (Cc b t0) QX) as L1.
    pose proof (fun a b c d => Cl _ _ _ t0 (L1 a b) (L1 c d) QY) as L2.
    exact (Cl _ _ _ t0 (L2 _ _ _ _) (L2 _ _ _ _) QW). }
  destruct (CF (fun y => Rabs (y - F (vx p, vy p, vz p)) < eps)) as [d Hd].
  { exists (mkposreal eps He). intros y Hy. exact Hy. }
  exists d. split; [apply cond_pos|]. intros q Hx Hy Hz. specialize (Hd (vx q, vy q, vz q)). apply Hd. repeat split; auto.
Qed.
Theorem C25_continuous : forall lo hi I J K g v p, grid_of lo hi I J K g -> node_values g v ->
  forall eps, 0 < eps -> exists d, 0 < d /\ forall q a b,
    Rabs (vx q - vx p) < d -> Rabs (vy q - vy p) < d -> Rabs (vz q - vz p) < d ->
    get_value g p = Some a -> get_value g q = Some b -> Rabs (b - a) < eps.
Proof.
  intros lo hi I J K g v p G Hv eps He. destruct (grid_of_ok _ _ _ _ _ _ G) as (E1 & E2 & E3 & E4 & E5 & O & Es).
  apply node_values_has in Hv. pose proof O as (HI & HJ & HK & Sx & Sy & Sz & _).
  destruct (admissible_near (sx g p) _ HI) as (dx & Dx & Nx). destruct (admissible_near (sy g p) _ HJ) as (dy & Dy & Ny). destruct (admissible_near (sz g p) _ HK) as (dz & Dz & Nz).
  (* one delta for all cells *)
  assert (U : forall cs : list (Z * Z * Z), exists d, 0 < d /\ forall c q, In c cs -> Rabs (vx q - vx p) < d -> Rabs (vy q - vy p) < d -> Rabs (vz q - vz p) < d ->
     Rabs (cell_value v (sx g q) (sy g q) (sz g q) c - cell_value v (sx g p) (sy g p) (sz g p) c) < eps).
  { induction cs as [|c cs (d & Hd & IH)]; [exists 1; split; [lra|contradiction]|].
    destruct (cont_cell v g c p O eps He) as (d' & Hd' & Hc). exists (Rmin d d'). split; [apply Rmin_glb_lt; auto|].
    intros c' q [<-|Hin] Hx Hy Hz; [apply Hc|apply IH; auto]; eapply Rlt_le_trans; eauto; apply Rmin_r || apply Rmin_l. }
  destruct (U (node_loop g)) as (d & Hd & Hc).
  exists (Rmin d (Rmin (dx * vx (g_spacing g)) (Rmin (dy * vy (g_spacing g)) (dz * vz (g_spacing g))))).
  split; [repeat apply Rmin_glb_lt; auto; apply Rmult_lt_0_compat; auto|].
  intros q a b Hx Hy Hz Ea Eb.
  pose proof (Rmin_l d (Rmin (dx * vx (g_spacing g)) (Rmin (dy * vy (g_spacing g)) (dz * vz (g_spacing g))))).
  pose proof (Rmin_r d (Rmin (dx * vx (g_spacing g)) (Rmin (dy * vy (g_spacing g)) (dz * vz (g_spacing g))))).
  pose proof (Rmin_l (dx * vx (g_spacing g)) (Rmin (dy * vy (g_spacing g)) (dz * vz (g_spacing g)))).
  pose proof (Rmin_r (dx * vx (g_spacing g)) (Rmin (dy * vy (g_spacing g)) (dz * vz (g_spacing g)))).
  pose proof (Rmin_l (dy * vy (g_spacing g)) (dz * vz (g_spacing g))).
  pose proof (Rmin_r (dy * vy (g_spacing g)) (dz * vz (g_spacing g))).
  set (D := Rmin d _) in *. clearbody D.
  assert (Ax : admissible (sx g p) (g_I g) (zclip (zfloor (sx g q)) 0 (g_I g - 2))).
  { apply Nx. unfold sx. replace ((vx q - vx (g_min g)) / vx (g_spacing g) - (vx p - vx (g_min g)) / vx (g_spacing g)) with ((vx q - vx p) / vx (g_spacing g)) by (field; lra).
    unfold Rdiv. rewrite Rabs_mult, (Rabs_pos_eq (/ _)) by (apply Rlt_le, Rinv_0_lt_compat; auto). apply (Rmult_lt_reg_r (vx (g_spacing g))); auto. rewrite Rmult_assoc, Rinv_l by lra. lra. }
  assert (Ay : admissible (sy g p) (g_J g) (zclip (zfloor (sy g q)) 0 (g_J g - 2))).
  { apply Ny. unfold sy. replace ((vy q - vy (g_min g)) / vy (g_spacing g) - (vy p - vy (g_min g)) / vy (g_spacing g)) with ((vy q - vy p) / vy (g_spacing g)) by (field; lra).
    unfold Rdiv. rewrite Rabs_mult, (Rabs_pos_eq (/ _)) by (apply Rlt_le, Rinv_0_lt_compat; auto). apply (Rmult_lt_reg_r (vy (g_spacing g))); auto. rewrite Rmult_assoc, Rinv_l by lra. lra. }
  assert (Az : admissible (sz g p) (g_K g) (zclip (zfloor (sz g q)) 0 (g_K g - 2))).
  { apply Nz. unfold sz. replace ((vz q - vz (g_min g)) / vz (g_spacing g) - (vz p - vz (g_min g)) / vz (g_spacing g)) with ((vz q - vz p) / vz (g_spacing g)) by (field; lra).
    unfold Rdiv. rewrite Rabs_mult, (Rabs_pos_eq (/ _)) by (apply Rlt_le, Rinv_0_lt_compat; auto). apply (Rmult_lt_reg_r (vz (g_spacing g))); auto. rewrite Rmult_assoc, Rinv_l by lra. lra. }
  rewrite (get_value_cell g v) in Ea, Eb by auto. assert (Some_inj : forall x y : R, Some x = Some y -> x = y) by congruence. apply Some_inj in Ea, Eb. subst a b.
  pose proof (cell_range g p HI HJ HK) as C. destruct (get_enclosing_cell_idx g p) as [[ci cj] ck]. destruct C as (Cx & Cy & Cz).
  rewrite (cell_agree v _ _ _ _ _ _ _ _ _ _ _ _ Cx Ax Cy Ay Cz Az).
  change (get_enclosing_cell_idx g q) with (zclip (zfloor (sx g q)) 0 (g_I g - 2), zclip (zfloor (sy g q)) 0 (g_J g - 2), zclip (zfloor (sz g q)) 0 (g_K g - 2))%Z.
  apply Hc; try lra. apply in_node_loop. destruct Ax as [? _], Ay as [? _], Az as [? _]. lia.
Qed.
Print Assumptions C25_continuous.
Example C25_nonvacuous : exists g v, grid_of ex_lo ex_hi 2 3 4 g /\ node_values g v /\ v 1%Z 2%Z 3%Z = 27.
Proof.
  destruct ex_grid as (g & E & G). destruct (C23_eval_on_grid _ _ _ _ _ _ (fun p => vx p * vy p * vz p) G) as (g' & E' & G' & V).
  exists g', (fun i j k => let p := get_node_coord g' i j k in vx p * vy p * vz p). split; auto.
  destruct (grid_of_ok _ _ _ _ _ _ G') as (_ & _ & E3 & E4 & E5 & _). split.
  - intros i j k Hn. rewrite E3, E4, E5 in Hn. rewrite V; auto.
  - cbv zeta. rewrite (coord_axis _ _ _ _ _ _ _ _ _ G'). unfold axis_coord; cbn. field.
Qed.

(** ** C26 *)
(** w is the gradient of f at p *)
Definition gradient_at (f : vec3 -> R) (p w : vec3) : Prop :=
  derivable_pt_lim (fun t => f (mkV t (vy p) (vz p))) (vx p) (vx w) /\
  derivable_pt_lim (fun t => f (mkV (vx p) t (vz p))) (vy p) (vy w) /\
  derivable_pt_lim (fun t => f (mkV (vx p) (vy p) t)) (vz p) (vz w).
Definition value_fun (g : grid) (q : vec3) : R := match get_value g q with Some r => r | None => 0 end.
(** p lies strictly inside the cell with lower corner node (i,j,k) *)
Definition strictly_in_cell (g : grid) (p : vec3) (i j k : Z) : Prop :=
  let a := get_node_coord g i j k in let b := get_node_coord g (i + 1) (j + 1) (k + 1) in
  (0 <= i <= g_I g - 2 /\ 0 <= j <= g_J g - 2 /\ 0 <= k <= g_K g - 2)%Z /\
  vx a < vx p < vx b /\ vy a < vy p < vy b /\ vz a < vz p < vz b.
Lemma strict_cell g p i j k : grid_ok g -> strictly_in_cell g p i j k ->
  get_enclosing_cell_idx g p = (i, j, k) /\ (IZR i < sx g p < IZR i + 1) /\ (IZR j < sy g p < IZR j + 1) /\ (IZR k < sz g p < IZR k + 1).
Proof.
  intros (HI & HJ & HK & Sx & Sy & Sz & _) ((Ri & Rj & Rk) & Hx & Hy & Hz).
  unfold get_node_coord, vadd in Hx, Hy, Hz; cbn in Hx, Hy, Hz. rewrite plus_IZR in Hx, Hy, Hz.
  assert (Px : vx p = vx (g_min g) + vx (g_spacing g) * sx g p) by (unfold sx; field; lra).
  assert (Py : vy p = vy (g_min g) + vy (g_spacing g) * sy g p) by (unfold sy; field; lra).
  assert (Pz : vz p = vz (g_min g) + vz (g_spacing g) * sz g p) by (unfold sz; field; lra).
  assert (Bx : IZR i < sx g p < IZR i + 1) by (split; nra). assert (By : IZR j < sy g p < IZR j + 1) by (split; nra). assert (Bz : IZR k < sz g p < IZR k + 1) by (split; nra).
  split; auto. unfold get_enclosing_cell_idx. fold (sx g p) (sy g p) (sz g p).
  rewrite (floor_unique (sx g p) i), (floor_unique (sy g p) j), (floor_unique (sz g p) k) by lra. unfold zclip. repeat f_equal; lia.
Qed.
(** what get_gradient computes: the partial derivatives of the cell polynomial, but at the parameters
    (p - corner)/min_coord *)
Definition cell_grad (v : Z -> Z -> Z -> R) (h : vec3) (c : Z * Z * Z) (s t u : R) : vec3 :=
  let '(i, j, k) := c in
  let d000 := v i j k in let d001 := v i j (k + 1)%Z in let d010 := v i (j + 1)%Z k in let d011 := v i (j + 1)%Z (k + 1)%Z in
  let d100 := v (i + 1)%Z j k in let d101 := v (i + 1)%Z j (k + 1)%Z in let d110 := v (i + 1)%Z (j + 1)%Z k in let d111 := v (i + 1)%Z (j + 1)%Z (k + 1)%Z in
  mkV (((((d111 - d011) - (d101 - d001)) * t + (d101 - d001) - (((d110 - d010) - (d100 - d000)) * t + (d100 - d000))) * u + (((d110 - d010) - (d100 - d000)) * t + (d100 - d000))) * (1 / vx h))
      ((((((d111 - d011) * s + d011) - ((d101 - d001) * s + d001)) - (((d110 - d010) * s + d010) - ((d100 - d000) * s + d000))) * u + (((d110 - d010) * s + d010) - ((d100 - d000) * s + d000))) * (1 / vy h))
      ((((((d111 - d011) * s + d011) - ((d101 - d001) * s + d001)) * t + ((d101 - d001) * s + d001)) - ((((d110 - d010) * s + d010) - ((d100 - d000) * s + d000)) * t + ((d100 - d000) * s + d000))) * (1 / vz h)).
Lemma cell_deriv v g i j k p q : 0 < vx (g_spacing g) -> 0 < vy (g_spacing g) -> 0 < vz (g_spacing g) ->
  q = cell_grad v (g_spacing g) (i, j, k) (sx g p - IZR i) (sy g p - IZR j) (sz g p - IZR k) ->
  gradient_at (fun r => cell_value v (sx g r) (sy g r) (sz g r) (i, j, k)) p q.
Proof.
  intros Sx Sy Sz ->. unfold gradient_at, cell_value, trilinear, cell_grad, sx, sy, sz. cbn [vx vy vz].
  split; [|split]; apply is_derive_Reals; auto_derive; auto; field; lra.
Qed.
Lemma deriv_ext (f h : R -> R) x l d : 0 < d -> (forall t, Rabs (t - x) < d -> f t = h t) -> derivable_pt_lim f x l -> derivable_pt_lim h x l.
Proof.
  intros Hd E D. apply is_derive_Reals. apply is_derive_Reals in D. eapply is_derive_ext_loc; [|exact D].
  exists (mkposreal d Hd). intros y Hy. apply E. exact Hy.
Qed.
Lemma near_interval a b x : a < x < b -> exists d, 0 < d /\ forall t, Rabs (t - x) < d -> a < t < b.
Proof.
  intros H. exists (Rmin (x - a) (b - x)). split; [apply Rmin_glb_lt; lra|]. intros t Ht.
  pose proof (Rmin_l (x - a) (b - x)). pose proof (Rmin_r (x - a) (b - x)). apply Rabs_def2 in Ht. lra.
Qed.
Lemma value_gradient g v p i j k : grid_ok g -> has_values g v -> strictly_in_cell g p i j k ->
  gradient_at (value_fun g) p (cell_grad v (g_spacing g) (i, j, k) (sx g p - IZR i) (sy g p - IZR j) (sz g p - IZR k)).
Proof.
  intros O Hv S. pose proof O as (HI & HJ & HK & Sx & Sy & Sz & _).
  destruct (cell_deriv v g i j k p _ Sx Sy Sz eq_refl) as (D1 & D2 & D3).
  pose proof S as (R & Bx & By & Bz).
  assert (Ex : forall q, strictly_in_cell g q i j k -> cell_value v (sx g q) (sy g q) (sz g q) (i, j, k) = value_fun g q).
  { intros q Sq. unfold value_fun. rewrite (get_value_cell g v) by auto. destruct (strict_cell g q i j k O Sq) as (-> & _). auto. }
  split; [|split].
  - destruct (near_interval _ _ _ Bx) as (d & Hd & N). eapply (deriv_ext _ _ _ _ d Hd); [|exact D1]. intros t Ht. apply (Ex (mkV t (vy p) (vz p))). specialize (N t Ht). split; [|split; [|split]]; auto.
  - destruct (near_interval _ _ _ By) as (d & Hd & N). eapply (deriv_ext _ _ _ _ d Hd); [|exact D2]. intros t Ht. apply (Ex (mkV (vx p) t (vz p))). specialize (N t Ht). split; [|split; [|split]]; auto.
  - destruct (near_interval _ _ _ Bz) as (d & Hd & N). eapply (deriv_ext _ _ _ _ d Hd); [|exact D3]. intros t Ht. apply (Ex (mkV (vx p) (vy p) t)). specialize (N t Ht). split; [|split; [|split]]; auto.
Qed.
Lemma get_gradient_cell g v p : grid_ok g -> has_values g v -> vx (g_min g) <> 0 -> vy (g_min g) <> 0 -> vz (g_min g) <> 0 ->
  get_gradient g p = Some (let '(i, j, k) := get_enclosing_cell_idx g p in
    cell_grad v (g_spacing g) (i, j, k) ((vx p - vx (get_node_coord g i j k)) / vx (g_min g)) ((vy p - vy (get_node_coord g i j k)) / vy (g_min g)) ((vz p - vz (get_node_coord g i j k)) / vz (g_min g))).
Proof.
  intros O Hv Nx Ny Nz. pose proof O as (HI & HJ & HK & _). pose proof (cell_range g p HI HJ HK) as C. unfold get_gradient.
  destruct (get_enclosing_cell_idx g p) as [[i j] k]. destruct C as ((A1 & _) & (A2 & _) & (A3 & _)).
  rewrite !Hv by lia. destruct (Reqb_spec (vx (g_min g)) 0); [contradiction|]. destruct (Reqb_spec (vy (g_min g)) 0); [contradiction|]. destruct (Reqb_spec (vz (g_min g)) 0); [contradiction|].
  cbn [orb]. f_equal. unfold cell_grad, get_node_coord, vadd; cbn [vx vy vz].
  rewrite (Rmult_comm (IZR i)), (Rmult_comm (IZR j)), (Rmult_comm (IZR k)).
  rewrite (Rplus_comm _ (vx (g_min g))), (Rplus_comm _ (vy (g_min g))), (Rplus_comm _ (vz (g_min g))). reflexivity.
Qed.
(** The full claim is false: get_gradient divides the offset in the cell by min_coord instead of the spacing. *)
Theorem C26_gradient_refuted : exists lo hi I J K g v p i j k w w', grid_of lo hi I J K g /\ node_values g v /\
  strictly_in_cell g p i j k /\ get_gradient g p = Some w /\ gradient_at (value_fun g) p w' /\ vx w = 3 /\ vx w' = 2.
Proof.
  set (lo := mkV 1 1 1). set (hi := mkV 3 3 3).
  destruct (grid_make_some lo hi 2 2 2) as (g0 & E & E1 & E2 & E3 & E4 & E5 & E6 & _); cbn; try lra; try lia.
  assert (G : grid_of lo hi 2 2 2 g0).
  { unfold grid_of; cbn. repeat (split; [lra|]). exists g0. split; auto. exists (g_values g0). destruct g0; reflexivity. }
  destruct (C23_eval_on_grid _ _ _ _ _ _ (fun p => vx p * vy p) G) as (g & E' & G' & V).
  destruct (grid_of_ok _ _ _ _ _ _ G') as (F1 & F2 & F3 & F4 & F5 & O & Fs).
  set (v := fun i j k => let p := get_node_coord g i j k in vx p * vy p).
  assert (Hv : node_values g v) by (intros i j k Hn; rewrite F3, F4, F5 in Hn; apply V; auto).
  assert (S : strictly_in_cell g (mkV 2 2 2) 0 0 0).
  { unfold strictly_in_cell. rewrite F3, F4, F5. rewrite !(coord_axis _ _ _ _ _ _ _ _ _ G'). unfold axis_coord; cbn. split; [lia|]. lra. }
  pose proof (strict_cell _ _ _ _ _ O S) as (Ec & _).
  exists lo, hi, 2%Z, 2%Z, 2%Z, g, v, (mkV 2 2 2), 0%Z, 0%Z, 0%Z. eexists. eexists.
  split; auto. split; auto. split; auto. split; [apply get_gradient_cell with (v := v); auto; try (apply node_values_has; auto); rewrite F1; cbn; lra|].
  split; [apply value_gradient with (v := v); eauto; apply node_values_has; auto|].
  rewrite Ec. unfold cell_grad, v. cbv zeta. rewrite !(coord_axis _ _ _ _ _ _ _ _ _ G'). unfold axis_coord, sx, sy, sz. rewrite F1, Fs. cbn. split; field.
Qed.
Print Assumptions C26_gradient_refuted.
(** With a zero component in min_coord the code divides by zero at every point. *)
Theorem C26_zero_min_refuted : forall lo hi I J K g p, grid_of lo hi I J K g ->
  vx lo = 0 \/ vy lo = 0 \/ vz lo = 0 -> get_gradient g p = None.
Proof.
  intros lo hi I J K g p G H. destruct (grid_of_ok _ _ _ _ _ _ G) as (E1 & _). unfold get_gradient. rewrite E1. destruct (get_enclosing_cell_idx g p) as [[i j] k].
  repeat match goal with |- context [match ?e with Some _ => _ | None => None end] => destruct e; auto end.
  destruct (Reqb_spec (vx lo) 0), (Reqb_spec (vy lo) 0), (Reqb_spec (vz lo) 0); cbn; auto; tauto.
Qed.
Print Assumptions C26_zero_min_refuted.
(** What does hold, for every grid: the result is the gradient of the interpolant of p's cell, taken at a
    displaced point p' (offset from the cell corner scaled by spacing/min_coord); p' = p iff min_coord = spacing. *)
Theorem C26_displaced_gradient_partial : forall lo hi I J K g v p i j k w, grid_of lo hi I J K g -> node_values g v ->
  vx lo <> 0 -> vy lo <> 0 -> vz lo <> 0 -> get_enclosing_cell_idx g p = (i, j, k) -> get_gradient g p = Some w ->
  let c := get_node_coord g i j k in let h := g_spacing g in
  let p' := mkV (vx c + (vx p - vx c) * (vx h / vx lo)) (vy c + (vy p - vy c) * (vy h / vy lo)) (vz c + (vz p - vz c) * (vz h / vz lo)) in
  gradient_at (fun r => cell_value v (sx g r) (sy g r) (sz g r) (i, j, k)) p' w.
Proof.
  intros lo hi I J K g v p i j k w G Hv Nx Ny Nz Ec Ew. cbv zeta. destruct (grid_of_ok _ _ _ _ _ _ G) as (E1 & _ & _ & _ & _ & O & _).
  pose proof O as (_ & _ & _ & Sx & Sy & Sz & _). apply node_values_has in Hv.
  rewrite (get_gradient_cell g v p O Hv) in Ew by (rewrite E1; auto). rewrite Ec in Ew. assert (Some_inj : forall x y : vec3, Some x = Some y -> x = y) by congruence. apply Some_inj in Ew. subst w.
  apply cell_deriv; auto.
  f_equal; unfold sx, sy, sz, get_node_coord, vadd; cbn [vx vy vz]; rewrite ?E1; field; lra.
Qed.
Print Assumptions C26_displaced_gradient_partial.
(** ... so it is right when min_coord happens to equal the spacing *)
Theorem C26_spacing_partial : forall lo hi I J K g v p i j k, grid_of lo hi I J K g -> node_values g v ->
  lo = g_spacing g -> strictly_in_cell g p i j k ->
  exists w, get_gradient g p = Some w /\ gradient_at (value_fun g) p w.
Proof.
  intros lo hi I J K g v p i j k G Hv El S. destruct (grid_of_ok _ _ _ _ _ _ G) as (E1 & _ & _ & _ & _ & O & _).
  pose proof O as (_ & _ & _ & Sx & Sy & Sz & _). apply node_values_has in Hv. pose proof (strict_cell _ _ _ _ _ O S) as (Ec & _).
  eexists. split; [apply get_gradient_cell with (v := v); auto; rewrite E1, El; lra|]. rewrite Ec.
  pose proof (value_gradient g v p i j k O Hv S) as D. replace (vx p - vx (get_node_coord g i j k)) with ((sx g p - IZR i) * vx (g_min g)); [|unfold sx, get_node_coord, vadd; cbn [vx vy vz]; rewrite E1, El; field; lra].
  replace (vy p - vy (get_node_coord g i j k)) with ((sy g p - IZR j) * vy (g_min g)); [|unfold sy, get_node_coord, vadd; cbn [vx vy vz]; rewrite E1, El; field; lra].
  replace (vz p - vz (get_node_coord g i j k)) with ((sz g p - IZR k) * vz (g_min g)); [|unfold sz, get_node_coord, vadd; cbn [vx vy vz]; rewrite E1, El; field; lra].
  replace ((sx g p - IZR i) * vx (g_min g) / vx (g_min g)) with (sx g p - IZR i) by (field; rewrite E1, El; lra).
  replace ((sy g p - IZR j) * vy (g_min g) / vy (g_min g)) with (sy g p - IZR j) by (field; rewrite E1, El; lra).
  replace ((sz g p - IZR k) * vz (g_min g) / vz (g_min g)) with (sz g p - IZR k) by (field; rewrite E1, El; lra). exact D.
Qed.
Print Assumptions C26_spacing_partial.
(** ... and for samples of an affine function, whose gradient is the same everywhere *)
Theorem C26_affine_partial : forall lo hi I J K g a b p, grid_of lo hi I J K g -> vx lo <> 0 -> vy lo <> 0 -> vz lo <> 0 ->
  node_values g (fun i j k => a + vdot b (get_node_coord g i j k)) -> get_gradient g p = Some b.
Proof.
  intros lo hi I J K g a b p G Nx Ny Nz Hv. destruct (grid_of_ok _ _ _ _ _ _ G) as (E1 & _ & _ & _ & _ & O & _).
  pose proof O as (_ & _ & _ & Sx & Sy & Sz & _). apply node_values_has in Hv.
  rewrite (get_gradient_cell g _ p O Hv) by (rewrite E1; auto). f_equal. destruct (get_enclosing_cell_idx g p) as [[i j] k].
  unfold cell_grad, vdot, get_node_coord, vadd; cbn [vx vy vz]. rewrite !plus_IZR. apply vec3_eq; cbn [vx vy vz]; rewrite ?E1; field; repeat split; lra.
Qed.
Print Assumptions C26_affine_partial.
Example C26_nonvacuous : exists g v, grid_of (mkV 1 1 1) (mkV 2 2 2) 2 2 2 g /\ node_values g v /\ mkV 1 1 1 = g_spacing g /\ strictly_in_cell g (mkV (3/2) (3/2) (3/2)) 0 0 0.
Proof.
  set (lo := mkV 1 1 1). set (hi := mkV 2 2 2).
  destruct (grid_make_some lo hi 2 2 2) as (g0 & E & E1 & E2 & E3 & E4 & E5 & E6 & _); cbn; try lra; try lia.
  assert (G : grid_of lo hi 2 2 2 g0).
  { unfold grid_of; cbn. repeat (split; [lra|]). exists g0. split; auto. exists (g_values g0). destruct g0; reflexivity. }
  destruct (C23_eval_on_grid _ _ _ _ _ _ (fun p => vx p * vy p) G) as (g & E' & G' & V).
  destruct (grid_of_ok _ _ _ _ _ _ G') as (F1 & F2 & F3 & F4 & F5 & O & Fs).
  exists g, (fun i j k => let p := get_node_coord g i j k in vx p * vy p). split; auto. split; [intros i j k Hn; rewrite F3, F4, F5 in Hn; apply V; auto|].
  split; [rewrite Fs; apply vec3_eq; cbn; field|].
  unfold strictly_in_cell. rewrite F3, F4, F5. rewrite !(coord_axis _ _ _ _ _ _ _ _ _ G'). unfold axis_coord; cbn. split; [lia|]. lra.
Qed.

(** ** C27 *)
Theorem C27_is_inside : forall g p d,
  (d < 0 -> grid_is_inside g p d = None) /\
  (0 <= d -> exists r, grid_is_inside g p d = Some r /\
     (r = true <-> (d <= vx p - vx (g_min g) /\ d <= vx (g_max g) - vx p /\ d <= vy p - vy (g_min g) /\ d <= vy (g_max g) - vy p /\
                    d <= vz p - vz (g_min g) /\ d <= vz (g_max g) - vz p))).
Proof.
  intros g p d. unfold grid_is_inside. split.
  - intros H. destruct (Rltb_spec d 0); auto. contradiction.
  - intros H. destruct (Rltb_spec d 0); [lra|].
    destruct (Rltb_spec (vx (g_max g) - d) (vx p)); [eexists; split; [reflexivity|split; intros; [discriminate|lra]]|].
    destruct (Rltb_spec (vy (g_max g) - d) (vy p)); [eexists; split; [reflexivity|split; intros; [discriminate|lra]]|].
    destruct (Rltb_spec (vz (g_max g) - d) (vz p)); [eexists; split; [reflexivity|split; intros; [discriminate|lra]]|].
    destruct (Rltb_spec (vx p) (vx (g_min g) + d)); [eexists; split; [reflexivity|split; intros; [discriminate|lra]]|].
    destruct (Rltb_spec (vy p) (vy (g_min g) + d)); [eexists; split; [reflexivity|split; intros; [discriminate|lra]]|].
    destruct (Rltb_spec (vz p) (vz (g_min g) + d)); [eexists; split; [reflexivity|split; intros; [discriminate|lra]]|].
    eexists; split; [reflexivity|]. split; auto. intros _. lra.
Qed.
Print Assumptions C27_is_inside.
Theorem C27_antitone : forall g p d d', 0 <= d <= d' -> grid_is_inside g p d' = Some true -> grid_is_inside g p d = Some true.
Proof.
  intros g p d d' H E. destruct (C27_is_inside g p d) as [_ A]. destruct (C27_is_inside g p d') as [_ A'].
  destruct (A ltac:(lra)) as (r & Er & Hr). destruct (A' ltac:(lra)) as (r' & Er' & Hr'). rewrite Er. f_equal. apply Hr.
  rewrite E in Er'. injection Er' as <-. destruct Hr' as [Hr' _]. specialize (Hr' eq_refl). lra.
Qed.
Print Assumptions C27_antitone.
Example C27_nonvacuous : exists g, grid_of ex_lo ex_hi 2 3 4 g /\ grid_is_inside g (mkV 2 2 2) 1 = Some true /\ grid_is_inside g (mkV 2 2 2) (1 + 1/2) = Some false.
Proof.
  destruct ex_grid as (g & E & G). exists g. split; auto. destruct (grid_of_ok _ _ _ _ _ _ G) as (E1 & E2 & _).
  unfold grid_is_inside. rewrite E1, E2. cbn.
  split; repeat match goal with |- context [Rltb ?a ?b] => destruct (Rltb_spec a b); try lra end; auto.
Qed.

(** ** C69 *)
Theorem C69_signed_distance_grid : forall sd V I J K boundary g, create_signed_distance sd V I J K boundary = Some g ->
  0 <= boundary /\ V <> [] /\ g_I g = I /\ g_J g = J /\ g_K g = K /\
  (exists b, aabb_create_from_vertices V = Some b /\ g_min g = bx_min (grow_box b boundary) /\ g_max g = bx_max (grow_box b boundary)) /\
  (forall p, In p V -> grid_is_inside g p boundary = Some true) /\
  (forall i j k, is_node I J K i j k -> get_node_value g i j k = Some (sd (get_node_coord g i j k))).
Proof.
  intros sd V I J K boundary g E. unfold create_signed_distance in E. destruct (Rltb_spec boundary 0) as [|Hb]; [discriminate|].
  destruct (np_min0 V) as [lo|] eqn:El; [|discriminate]. destruct (np_max0 V) as [hi|] eqn:Eh; [|discriminate].
  destruct (grid_make _ _ I J K) as [g0|] eqn:Eg; [|discriminate]. destruct (get_nodes_array g0) as [nodes|] eqn:En; [|discriminate].
  injection E as <-. apply grid_make_inv in Eg. destruct Eg as (E1 & E2 & E3 & E4 & E5 & _ & HI & HJ & HK & _).
  cbn [g_I g_J g_K g_min g_max]. split; [lra|]. split; [intros ->; discriminate|]. split; auto. split; auto. split; auto.
  assert (Eb : aabb_create_from_vertices V = Some (mkAABB lo hi)) by (unfold aabb_create_from_vertices; rewrite El, Eh; auto).
  split; [exists (mkAABB lo hi); auto|]. split.
  - intros p Hp. destruct (create_bounds _ _ Eb) as [B _]. specialize (B p Hp). unfold in_box, v_le in B; cbn in B.
    destruct (C27_is_inside (mkG (g_min g0) (g_max g0) (g_I g0) (g_J g0) (g_K g0) (g_spacing g0) (Some (map sd nodes))) p boundary) as [_ A].
    destruct (A ltac:(lra)) as (r & -> & Hr). f_equal. apply Hr. cbn [g_min g_max]. rewrite E1, E2. unfold vsubc, vaddc; cbn. lra.
  - intros i j k (Hi & Hj & Hk). subst I J K.
    destruct (node_loop_store g0 (fun i j k => get_node_coord g0 i j k) vzero HI HJ HK) as (l & E & L & S).
    unfold get_nodes_array in En. rewrite E in En. injection En as <-. specialize (S i j k Hi Hj Hk).
    pose proof (lin_range g0 i j k HI HJ HK Hi Hj Hk).
    unfold get_node_value; cbn [g_values]. change (get_linear_index _ i j k) with (get_linear_index g0 i j k).
    rewrite py_get_pos in S by lia. rewrite py_get_pos by lia. rewrite nth_error_map, S. reflexivity.
Qed.
Print Assumptions C69_signed_distance_grid.
Theorem C69_signed_distance_total : forall sd V I J K boundary, 0 <= boundary -> V <> [] -> (2 <= I)%Z -> (2 <= J)%Z -> (2 <= K)%Z ->
  exists g, create_signed_distance sd V I J K boundary = Some g.
Proof.
  intros sd V I J K boundary Hb HV HI HJ HK. unfold create_signed_distance. destruct (Rltb_spec boundary 0) as [|_]; [lra|].
  destruct V as [|a t]; [contradiction|].
  destruct (np_min0 (a :: t)) as [lo|] eqn:El; [|discriminate]. destruct (np_max0 (a :: t)) as [hi|] eqn:Eh; [|discriminate].
  assert (Eb : aabb_create_from_vertices (a :: t) = Some (mkAABB lo hi)) by (unfold aabb_create_from_vertices; rewrite El, Eh; auto).
  destruct (create_bounds _ _ Eb) as [B _]. specialize (B a (or_introl eq_refl)). unfold in_box, v_le in B; cbn in B.
  destruct (grid_make (vsubc lo boundary) (vaddc hi boundary) I J K) as [g0|] eqn:Eg.
  - pose proof Eg as Eg0. apply grid_make_inv in Eg. destruct Eg as (E1 & E2 & E3 & E4 & E5 & _).
    destruct (node_loop_store g0 (fun i j k => get_node_coord g0 i j k) vzero) as (l & E & _); [lia|lia|lia|].
    unfold get_nodes_array. rewrite E. eexists; reflexivity.
  - exfalso. apply C23_constructor_rejects in Eg. unfold vsubc, vaddc in Eg; cbn in Eg. decompose [or] Eg; lia || lra.
Qed.
Print Assumptions C69_signed_distance_total.
Example C69_nonvacuous : exists g, create_signed_distance vnorm [mkV 0 0 0; mkV 1 2 3] 4 4 4 (1/2) = Some g.
Proof. apply C69_signed_distance_total; try lra; try lia; discriminate. Qed.
