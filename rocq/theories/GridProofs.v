From Verif Require Import Base BvhModel BvhProofs GridModel.
Open Scope R_scope.

Definition grid_ok (g : grid) : Prop :=
  (2 <= g_I g)%Z /\ (2 <= g_J g)%Z /\ (2 <= g_K g)%Z /\
  0 < vx (g_spacing g) /\ 0 < vy (g_spacing g) /\ 0 < vz (g_spacing g) /\
  vx (g_max g) = vx (g_min g) + vx (g_spacing g) * IZR (g_I g - 1) /\
  vy (g_max g) = vy (g_min g) + vy (g_spacing g) * IZR (g_J g - 1) /\
  vz (g_max g) = vz (g_min g) + vz (g_spacing g) * IZR (g_K g - 1).
Lemma grid_make_some lo hi I J K : vx lo < vx hi -> vy lo < vy hi -> vz lo < vz hi -> (2 <= I)%Z -> (2 <= J)%Z -> (2 <= K)%Z ->
  exists g, grid_make lo hi I J K = Some g /\ g_min g = lo /\ g_max g = hi /\ g_I g = I /\ g_J g = J /\ g_K g = K /\ g_values g = None /\ grid_ok g.
Proof.
  intros Hx Hy Hz HI HJ HK. unfold grid_make.
  assert (E : any_lt hi lo = false).
  { unfold any_lt. rewrite !orb_false_iff, !Rltb_false. lra. }
  rewrite E. destruct (Z.ltb_spec I 2); [lia|]. destruct (Z.ltb_spec J 2); [lia|]. destruct (Z.ltb_spec K 2); [lia|].
  eexists; split; [reflexivity|]. cbn. repeat split; auto; cbn.
  all: try (apply Rdiv_lt_0_compat; [lra|apply IZR_lt; lia]).
  all: try lia; try lra.
  all: field; apply not_0_IZR; lia.
Qed.
Lemma grid_make_inv lo hi I J K g : grid_make lo hi I J K = Some g ->
  g_min g = lo /\ g_max g = hi /\ g_I g = I /\ g_J g = J /\ g_K g = K /\ g_values g = None /\ (2 <= I)%Z /\ (2 <= J)%Z /\ (2 <= K)%Z /\
  vx lo <= vx hi /\ vy lo <= vy hi /\ vz lo <= vz hi /\
  (vx lo < vx hi -> vy lo < vy hi -> vz lo < vz hi -> grid_ok g).
Proof.
  intros E. pose proof E as E0. unfold grid_make in E. destruct (any_lt hi lo) eqn:A; [discriminate|].
  destruct (Z.ltb_spec I 2); [discriminate|]. destruct (Z.ltb_spec J 2); [discriminate|]. destruct (Z.ltb_spec K 2); [discriminate|].
  injection E as <-; cbn. unfold any_lt in A. rewrite !orb_false_iff, !Rltb_false in A. repeat split; try lia; try lra.
  all: cbn; try (apply Rdiv_lt_0_compat; [lra|apply IZR_lt; lia]).
  all: try lia; try lra.
  all: field; apply not_0_IZR; lia.
Qed.

(** ** indexing *)
Lemma lin_range g i j k : (2 <= g_I g)%Z -> (2 <= g_J g)%Z -> (2 <= g_K g)%Z -> (0 <= i < g_I g)%Z -> (0 <= j < g_J g)%Z -> (0 <= k < g_K g)%Z ->
  (0 <= get_linear_index g i j k < g_I g * g_J g * g_K g)%Z.
Proof.
  unfold get_linear_index. intros. assert (0 <= j + g_J g * k <= g_J g * g_K g - 1)%Z by nia.
  split; nia.
Qed.
Lemma lin_inj g i j k i' j' k' : (0 <= i < g_I g)%Z -> (0 <= j < g_J g)%Z -> (0 <= i' < g_I g)%Z -> (0 <= j' < g_J g)%Z ->
  get_linear_index g i j k = get_linear_index g i' j' k' -> i = i' /\ j = j' /\ k = k'.
Proof.
  unfold get_linear_index. intros Hi Hj Hi' Hj' E.
  assert (E1 : (j + g_J g * k = j' + g_J g * k')%Z).
  { replace (j + g_J g * k)%Z with ((i + g_I g * (j + g_J g * k)) / g_I g)%Z.
    - rewrite E. symmetry. apply Z.div_unique with i'; [left; lia|ring].
    - symmetry. apply Z.div_unique with i; [left; lia|ring]. }
  rewrite E1 in E. assert (i = i') by lia.
  assert (k = k').
  { replace k with ((j + g_J g * k) / g_J g)%Z.
    - rewrite E1. symmetry. apply Z.div_unique with j'; [left; lia|ring].
    - symmetry. apply Z.div_unique with j; [left; lia|ring]. }
  subst. split; auto. split; auto. lia.
Qed.
Lemma lin_surj g n : (2 <= g_I g)%Z -> (2 <= g_J g)%Z -> (0 <= n < g_I g * g_J g * g_K g)%Z ->
  exists i j k, (0 <= i < g_I g)%Z /\ (0 <= j < g_J g)%Z /\ (0 <= k < g_K g)%Z /\ get_linear_index g i j k = n.
Proof.
  intros HI HJ Hn. exists (n mod g_I g)%Z, ((n / g_I g) mod g_J g)%Z, ((n / g_I g) / g_J g)%Z.
  pose proof (Z.mod_pos_bound n (g_I g) ltac:(lia)). pose proof (Z.mod_pos_bound (n / g_I g) (g_J g) ltac:(lia)).
  pose proof (Z.div_mod n (g_I g) ltac:(lia)). pose proof (Z.div_mod (n / g_I g) (g_J g) ltac:(lia)).
  repeat split; try lia.
  - apply Z.div_pos; [apply Z.div_pos; lia|lia].
  - apply Z.div_lt_upper_bound; [lia|]. apply Z.div_lt_upper_bound; [lia|]. nia.
  - unfold get_linear_index. set (q := (n / g_I g)%Z) in *. set (q2 := (q / g_J g)%Z) in *. rewrite (Z.add_comm (q mod g_J g)). rewrite <- H2. lia.
Qed.
Lemma valid_index g i j k : is_valid_node_index g i j k = true <-> (0 <= i < g_I g /\ 0 <= j < g_J g /\ 0 <= k < g_K g)%Z.
Proof.
  unfold is_valid_node_index.
  destruct (Z.ltb_spec i 0), (Z.ltb_spec j 0), (Z.ltb_spec k 0), (Z.leb_spec (g_I g) i), (Z.leb_spec (g_J g) j), (Z.leb_spec (g_K g) k); cbn; split; intros; try discriminate; try lia; auto.
Qed.
Lemma in_zupto n x : In x (zupto n) <-> (0 <= x < n)%Z.
Proof.
  unfold zupto. rewrite in_map_iff. split.
  - intros (k & <- & H). apply in_seq in H. lia.
  - intros H. exists (Z.to_nat x). split; [lia|apply in_seq; lia].
Qed.
Lemma in_node_loop g i j k : In (i, j, k) (node_loop g) <-> (0 <= i < g_I g /\ 0 <= j < g_J g /\ 0 <= k < g_K g)%Z.
Proof.
  unfold node_loop. rewrite in_flat_map. split.
  - intros (k' & Hk & H). apply in_flat_map in H. destruct H as (j' & Hj & H). apply in_map_iff in H. destruct H as (i' & E & Hi).
    injection E as <- <- <-. rewrite in_zupto in *. tauto.
  - intros (Hi & Hj & Hk). exists k. rewrite in_zupto. split; auto. apply in_flat_map. exists j. rewrite in_zupto. split; auto.
    apply in_map_iff. exists i. rewrite in_zupto. auto.
Qed.
(** storing at distinct places *)
Lemma py_set_range {A} (l : list A) z x : (0 <= z < Z.of_nat (length l))%Z -> py_set l z x = Some (list_upd l (Z.to_nat z) x).
Proof. intros H. unfold py_set. rewrite <- (Z2Nat.id z) at 1 by lia. rewrite py_idx_nat by lia. auto. Qed.
Lemma store_all_ok {A} (f : Z * Z * Z -> A) ix : forall ts l,
  (forall t, In t ts -> (0 <= ix t < Z.of_nat (length l))%Z) ->
  (forall t t', In t ts -> In t' ts -> ix t = ix t' -> t = t') ->
  exists l', store_all f ix ts l = Some l' /\ length l' = length l /\
    (forall t, In t ts -> nth_error l' (Z.to_nat (ix t)) = Some (f t)) /\
    (forall n, (forall t, In t ts -> Z.to_nat (ix t) <> n) -> nth_error l' n = nth_error l n).
Proof.
  induction ts as [|t ts IH]; intros l Hr Hi; cbn [store_all].
  - exists l. repeat split; auto. contradiction.
  - rewrite py_set_range by (apply Hr; cbn; auto).
    destruct (IH (list_upd l (Z.to_nat (ix t)) (f t))) as (l' & E & L & S & O).
    + intros t' Ht'. rewrite list_upd_length. apply Hr; cbn; auto.
    + intros; apply Hi; cbn; auto.
    + exists l'. rewrite E. rewrite list_upd_length in L. repeat split; auto.
      * intros t' [<-|Ht']; auto.
        destruct (in_dec (fun a b : Z * Z * Z => ltac:(repeat decide equality)) t ts) as [Hin|Hin]; auto.
        rewrite O.
        -- apply list_upd_same. specialize (Hr t (or_introl eq_refl)). lia.
        -- intros t' Ht' E'. apply Hin. replace t with t'; auto. apply Hi; cbn; auto.
           pose proof (Hr t (or_introl eq_refl)). pose proof (Hr t' (or_intror Ht')). lia.
      * intros n Hn. rewrite O by (intros; apply Hn; cbn; auto). apply list_upd_other. intros ->. apply (Hn t); cbn; auto.
Qed.
Lemma node_loop_store {A} g (f : Z -> Z -> Z -> A) (d : A) : (2 <= g_I g)%Z -> (2 <= g_J g)%Z -> (2 <= g_K g)%Z ->
  exists l, store_all (fun '(i, j, k) => f i j k) (fun '(i, j, k) => get_linear_index g i j k) (node_loop g) (repeat d (Z.to_nat (g_I g * g_J g * g_K g))) = Some l /\
    Z.of_nat (length l) = (g_I g * g_J g * g_K g)%Z /\
    forall i j k, (0 <= i < g_I g)%Z -> (0 <= j < g_J g)%Z -> (0 <= k < g_K g)%Z -> py_get l (get_linear_index g i j k) = Some (f i j k).
Proof.
  intros HI HJ HK.
  assert (0 <= g_I g * g_J g * g_K g)%Z by nia.
  destruct (store_all_ok (fun '(i, j, k) => f i j k) (fun '(i, j, k) => get_linear_index g i j k) (node_loop g) (repeat d (Z.to_nat (g_I g * g_J g * g_K g)))) as (l & E & L & S & _).
  - intros [[i j] k] Ht. apply in_node_loop in Ht. rewrite repeat_length. rewrite Z2Nat.id by auto. apply lin_range; tauto.
  - intros [[i j] k] [[i' j'] k'] Ht Ht' E. apply in_node_loop in Ht, Ht'. destruct (lin_inj g i j k i' j' k') as (-> & -> & ->); tauto.
  - exists l. split; auto. rewrite L, repeat_length. split; [lia|]. intros i j k Hi Hj Hk.
    pose proof (lin_range g i j k HI HJ HK Hi Hj Hk). rewrite py_get_pos by lia.
    apply (S (i, j, k)). apply in_node_loop; auto.
Qed.

(** ** cells *)
Lemma floor_spec x : IZR (zfloor x) <= x < IZR (zfloor x) + 1.
Proof. unfold zfloor. destruct (base_Int_part x). lra. Qed.
Lemma floor_unique x n : IZR n <= x < IZR n + 1 -> zfloor x = n.
Proof.
  intros H. pose proof (floor_spec x). assert (IZR (zfloor x) < IZR (n + 1)) by (rewrite plus_IZR; lra).
  assert (IZR n < IZR (zfloor x + 1)) by (rewrite plus_IZR; lra). apply lt_IZR in H1, H2. lia.
Qed.
(** [admissible X n i]: cell i may be used at scaled coordinate X on an axis with n nodes *)
Definition admissible (X : R) (n i : Z) : Prop :=
  (0 <= i <= n - 2)%Z /\ (IZR i <= X \/ i = 0%Z) /\ (X <= IZR i + 1 \/ i = (n - 2)%Z).
Lemma clip_admissible X n : (2 <= n)%Z -> admissible X n (zclip (zfloor X) 0 (n - 2)).
Proof.
  intros Hn. pose proof (floor_spec X). unfold admissible, zclip. split; [lia|].
  destruct (Z.le_gt_cases (zfloor X) 0), (Z.le_gt_cases (zfloor X) (n - 2)).
  - replace (Z.min (Z.max (zfloor X) 0) (n - 2)) with 0%Z by lia. split; auto. left. assert (IZR (zfloor X) <= 0) by (apply (IZR_le _ 0); auto). lra.
  - lia.
  - replace (Z.min (Z.max (zfloor X) 0) (n - 2)) with (zfloor X) by lia. split; left; lra.
  - replace (Z.min (Z.max (zfloor X) 0) (n - 2)) with (n - 2)%Z by lia. split; [left|auto].
    assert (IZR (n - 2) <= IZR (zfloor X)) by (apply IZR_le; lia). lra.
Qed.
Lemma admissible_close X n i i' : admissible X n i -> admissible X n i' -> i = i' \/ (i' = (i + 1)%Z /\ X = IZR i') \/ (i = (i' + 1)%Z /\ X = IZR i).
Proof.
  intros (A1 & A2 & A3) (B1 & B2 & B3). destruct (Z.lt_trichotomy i i') as [L|[E|L]]; auto.
  - right; left. assert (X <= IZR i + 1) by (destruct A3; auto; lia). assert (IZR i' <= X) by (destruct B2; auto; lia).
    assert (IZR i' <= IZR (i + 1)) by (rewrite plus_IZR; lra). apply le_IZR in H1.
    assert (i' = (i + 1)%Z) by lia. subst. split; auto. rewrite plus_IZR in *. lra.
  - right; right. assert (X <= IZR i' + 1) by (destruct B3; auto; lia). assert (IZR i <= X) by (destruct A2; auto; lia).
    assert (IZR i <= IZR (i' + 1)) by (rewrite plus_IZR; lra). apply le_IZR in H1.
    assert (i = (i' + 1)%Z) by lia. subst. split; auto. rewrite plus_IZR in *. lra.
Qed.
(** cells used near X are admissible at X *)
Lemma admissible_near X n : (2 <= n)%Z -> exists d, 0 < d /\ forall Y, Rabs (Y - X) < d -> admissible X n (zclip (zfloor Y) 0 (n - 2)).
Proof.
  intros Hn. pose proof (floor_spec X) as HX. set (f := zfloor X) in *.
  destruct (Req_EM_T X (IZR f)) as [E|N].
  - exists 1. split; [lra|]. intros Y HY. apply Rabs_def2 in HY.
    assert (Hf : zfloor Y = f \/ zfloor Y = (f - 1)%Z).
    { destruct (Rle_dec (IZR f) Y); [left; apply floor_unique; lra|right; apply floor_unique; rewrite minus_IZR; lra]. }
    unfold admissible, zclip. split; [lia|].
    assert (G : forall m, (m <= f)%Z -> IZR m <= X) by (intros m Hm; rewrite E; apply IZR_le; auto).
    assert (G' : forall m, (f - 1 <= m)%Z -> X <= IZR m + 1) by (intros m Hm; rewrite E, <- plus_IZR; apply IZR_le; lia).
    destruct Hf as [-> | ->].
    + split; [destruct (Z.le_gt_cases 0 f); [left; apply G; lia|right; lia]|destruct (Z.le_gt_cases f (n - 2)); [left; apply G'; lia|right; lia]].
    + split; [destruct (Z.le_gt_cases 0 f); [|right; lia]|destruct (Z.le_gt_cases f (n - 2)); [left; apply G'; lia|]].
      * destruct (Z.eq_dec f 0); [right; lia|left; apply G; lia].
      * destruct (Z.eq_dec f (n - 1)); [left; apply G'; lia|right; lia].
  - exists (Rmin (X - IZR f) (IZR f + 1 - X)). split; [apply Rmin_glb_lt; lra|]. intros Y HY.
    pose proof (Rmin_l (X - IZR f) (IZR f + 1 - X)). pose proof (Rmin_r (X - IZR f) (IZR f + 1 - X)). apply Rabs_def2 in HY.
    rewrite (floor_unique Y f) by lra. apply clip_admissible; auto.
Qed.

(** ** interpolation *)
Definition has_values (g : grid) (v : Z -> Z -> Z -> R) : Prop :=
  forall i j k, (0 <= i < g_I g)%Z -> (0 <= j < g_J g)%Z -> (0 <= k < g_K g)%Z -> get_node_value g i j k = Some (v i j k).
Definition cell_value (v : Z -> Z -> Z -> R) (X Y W : R) (c : Z * Z * Z) : R :=
  let '(i, j, k) := c in
  trilinear (v i j k) (v i j (k+1)%Z) (v i (j+1)%Z k) (v i (j+1)%Z (k+1)%Z) (v (i+1)%Z j k) (v (i+1)%Z j (k+1)%Z) (v (i+1)%Z (j+1)%Z k) (v (i+1)%Z (j+1)%Z (k+1)%Z)
    (X - IZR i) (Y - IZR j) (W - IZR k).
Definition sx (g : grid) (p : vec3) := (vx p - vx (g_min g)) / vx (g_spacing g).
Definition sy (g : grid) (p : vec3) := (vy p - vy (g_min g)) / vy (g_spacing g).
Definition sz (g : grid) (p : vec3) := (vz p - vz (g_min g)) / vz (g_spacing g).
Lemma cell_range g p : (2 <= g_I g)%Z -> (2 <= g_J g)%Z -> (2 <= g_K g)%Z ->
  let '(i, j, k) := get_enclosing_cell_idx g p in admissible (sx g p) (g_I g) i /\ admissible (sy g p) (g_J g) j /\ admissible (sz g p) (g_K g) k.
Proof. intros HI HJ HK. cbn. repeat split; apply clip_admissible; auto. Qed.
Lemma get_value_cell g v p : grid_ok g -> has_values g v ->
  get_value g p = Some (cell_value v (sx g p) (sy g p) (sz g p) (get_enclosing_cell_idx g p)).
Proof.
  intros (HI & HJ & HK & Sx & Sy & Sz & _) Hv. pose proof (cell_range g p HI HJ HK) as C. unfold get_value.
  destruct (get_enclosing_cell_idx g p) as [[i j] k]. destruct C as ((A1 & _) & (A2 & _) & (A3 & _)).
  rewrite !Hv by lia. unfold cell_value. do 2 f_equal; unfold sx, sy, sz; field; lra.
Qed.
Lemma cell_agree v X Y W I J K i j k i' j' k' :
  admissible X I i -> admissible X I i' -> admissible Y J j -> admissible Y J j' -> admissible W K k -> admissible W K k' ->
  cell_value v X Y W (i, j, k) = cell_value v X Y W (i', j', k').
Proof.
  intros Ax Ax' Ay Ay' Az Az'.
  transitivity (cell_value v X Y W (i', j, k)); [|transitivity (cell_value v X Y W (i', j', k))].
  - destruct (admissible_close _ _ _ _ Ax Ax') as [->|[[E1 E2]|[E1 E2]]]; auto; rewrite E1, E2; unfold cell_value, trilinear; rewrite ?E1, plus_IZR; ring.
  - destruct (admissible_close _ _ _ _ Ay Ay') as [->|[[E1 E2]|[E1 E2]]]; auto; rewrite E1, E2; unfold cell_value, trilinear; rewrite ?E1, plus_IZR; ring.
  - destruct (admissible_close _ _ _ _ Az Az') as [->|[[E1 E2]|[E1 E2]]]; auto; rewrite E1, E2; unfold cell_value, trilinear; rewrite ?E1, plus_IZR; ring.
Qed.
Lemma lerp_between a b s lo hi : 0 <= s <= 1 -> lo <= a <= hi -> lo <= b <= hi -> lo <= (b - a) * s + a <= hi.
Proof. intros. replace ((b - a) * s + a) with (b * s + a * (1 - s)) by ring. split; nra. Qed.
