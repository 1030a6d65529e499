From Verif Require Import Base BvhModel BvhProofs GridModel GridProofs CurvModel.
Open Scope R_scope.

Lemma in_zinner n x : In x (zinner n) <-> (0 < x < n - 1)%Z.
Proof.
  unfold zinner. rewrite in_map_iff. split.
  - intros (m & <- & H). apply in_seq in H. lia.
  - intros H. exists (Z.to_nat (x - 1)). split; [lia|]. apply in_seq. lia.
Qed.
Lemma in_inner_loop g i j k : In (i, j, k) (inner_loop g) <-> (0 < i < g_I g - 1 /\ 0 < j < g_J g - 1 /\ 0 < k < g_K g - 1)%Z.
Proof.
  unfold inner_loop. rewrite in_flat_map. split.
  - intros (k' & Hk & H). apply in_flat_map in H. destruct H as (j' & Hj & H). apply in_map_iff in H. destruct H as (i' & E & Hi).
    injection E as <- <- <-. rewrite in_zinner in *. tauto.
  - intros (Hi & Hj & Hk). exists k. rewrite in_zinner. split; auto. apply in_flat_map. exists j. rewrite in_zinner. split; auto.
    apply in_map_iff. exists i. rewrite in_zinner. auto.
Qed.
Lemma store_opt_all f h ix : forall ts l, (forall t, In t ts -> f t = Some (h t)) -> store_opt f ix ts l = store_all h ix ts l.
Proof.
  induction ts as [|t ts IH]; intros l H; cbn; auto. rewrite (H t (or_introl eq_refl)). destruct (py_set l (ix t) (h t)); auto.
  apply IH. intros; apply H; cbn; auto.
Qed.
(** the stencil as a function of the node values *)
Definition stencil (phi : grid) (v : Z -> Z -> Z -> R) (i j k : Z) : R :=
  let dx := vx (g_spacing phi) in let dy := vy (g_spacing phi) in let dz := vz (g_spacing phi) in
  curvature_of ((v (i + 1)%Z j k - v (i - 1)%Z j k) * (1 / (2 * dx))) ((v i (j + 1)%Z k - v i (j - 1)%Z k) * (1 / (2 * dy))) ((v i j (k + 1)%Z - v i j (k - 1)%Z) * (1 / (2 * dz)))
    ((v (i + 1)%Z j k + v (i - 1)%Z j k - 2 * v i j k) * (1 / (dx * dx))) ((v i (j + 1)%Z k + v i (j - 1)%Z k - 2 * v i j k) * (1 / (dy * dy)))
    ((v i j (k + 1)%Z + v i j (k - 1)%Z - 2 * v i j k) * (1 / (dz * dz)))
    ((v (i + 1)%Z (j + 1)%Z k - v (i - 1)%Z (j + 1)%Z k - v (i + 1)%Z (j - 1)%Z k + v (i - 1)%Z (j - 1)%Z k) * (1 / (4 * dx * dy)))
    ((v (i + 1)%Z j (k + 1)%Z - v (i - 1)%Z j (k + 1)%Z - v (i + 1)%Z j (k - 1)%Z + v (i - 1)%Z j (k - 1)%Z) * (1 / (4 * dx * dz)))
    ((v i (j + 1)%Z (k + 1)%Z - v i (j + 1)%Z (k - 1)%Z - v i (j - 1)%Z (k + 1)%Z + v i (j - 1)%Z (k - 1)%Z) * (1 / (4 * dy * dz)))
    (kappa_max phi).
Lemma curvature_stencil phi v i j k :
  (forall a b c, (i - 1 <= a <= i + 1)%Z -> (j - 1 <= b <= j + 1)%Z -> (k - 1 <= c <= k + 1)%Z -> get_node_value phi a b c = Some (v a b c)) ->
  curvature_at phi i j k = Some (stencil phi v i j k).
Proof.
  intros H. unfold curvature_at. cbv zeta.
  repeat (rewrite H by lia). reflexivity.
Qed.
Lemma create_from_sdf_spec phi v : grid_ok phi -> grid_make (g_min phi) (g_max phi) (g_I phi) (g_J phi) (g_K phi) = Some (mkG (g_min phi) (g_max phi) (g_I phi) (g_J phi) (g_K phi) (g_spacing phi) None) ->
  (exists vs, g_values phi = Some vs /\ (g_I phi * g_J phi * g_K phi <= Z.of_nat (length vs))%Z) ->
  (forall i j k, (0 <= i < g_I phi)%Z -> (0 <= j < g_J phi)%Z -> (0 <= k < g_K phi)%Z -> get_node_value phi i j k = Some (v i j k)) ->
  exists vs', create_from_sdf phi = Some (mkG (g_min phi) (g_max phi) (g_I phi) (g_J phi) (g_K phi) (g_spacing phi) (Some vs')) /\
    (forall i j k, (0 < i < g_I phi - 1)%Z -> (0 < j < g_J phi - 1)%Z -> (0 < k < g_K phi - 1)%Z ->
       py_get vs' (get_linear_index phi i j k) = Some (stencil phi v i j k)) /\
    (forall i j k, (0 <= i < g_I phi)%Z -> (0 <= j < g_J phi)%Z -> (0 <= k < g_K phi)%Z ->
       ~ (0 < i < g_I phi - 1 /\ 0 < j < g_J phi - 1 /\ 0 < k < g_K phi - 1)%Z -> py_get vs' (get_linear_index phi i j k) = Some 0).
Proof.
  intros (HI & HJ & HK & Sx & Sy & Sz & _) EG (vs & EV & L) HV.
  unfold create_from_sdf. rewrite EG, EV.
  destruct (Reqb_spec (vx (g_spacing phi)) 0) as [Z1|_]; [lra|]. destruct (Reqb_spec (vy (g_spacing phi)) 0) as [Z1|_]; [lra|].
  destruct (Reqb_spec (vz (g_spacing phi)) 0) as [Z1|_]; [lra|]. cbn [orb].
  rewrite (store_opt_all _ (fun '(i, j, k) => stencil phi v i j k)).
  2:{ intros [[i j] k] Ht. apply in_inner_loop in Ht. apply curvature_stencil. intros. apply HV; lia. }
  destruct (store_all_ok (fun '(i, j, k) => stencil phi v i j k) (fun '(i, j, k) => get_linear_index phi i j k) (inner_loop phi) (map (fun _ => 0) vs)) as (l & E & L' & S & O).
  - intros [[i j] k] Ht. apply in_inner_loop in Ht. rewrite map_length. pose proof (lin_range phi i j k ltac:(lia) ltac:(lia) ltac:(lia) ltac:(lia) ltac:(lia) ltac:(lia)). lia.
  - intros [[i j] k] [[i' j'] k'] Ht Ht' E. apply in_inner_loop in Ht, Ht'. destruct (lin_inj phi i j k i' j' k') as (-> & -> & ->); auto; lia.
  - change (store_all (fun '(i, j, k) => stencil phi v i j k) (fun '(i, j, k) => get_linear_index (mkG (g_min phi) (g_max phi) (g_I phi) (g_J phi) (g_K phi) (g_spacing phi) None) i j k) (inner_loop phi) (map (fun _ => 0) vs) = Some l) in E.
    rewrite E. exists l. split; [reflexivity|]. rewrite map_length in L'. split.
    + intros i j k Hi Hj Hk. pose proof (lin_range phi i j k HI HJ HK ltac:(lia) ltac:(lia) ltac:(lia)).
      rewrite py_get_pos by lia. apply (S (i, j, k)). apply in_inner_loop. tauto.
    + intros i j k Hi Hj Hk Hb. pose proof (lin_range phi i j k HI HJ HK ltac:(lia) ltac:(lia) ltac:(lia)) as RG.
      rewrite py_get_pos by lia. rewrite O.
      * rewrite nth_error_map. destruct (nth_error vs _) eqn:En; auto. apply nth_error_None in En. lia.
      * intros [[i' j'] k'] Ht E'. apply in_inner_loop in Ht.
        pose proof (lin_range phi i' j' k' HI HJ HK ltac:(lia) ltac:(lia) ltac:(lia)) as RG'. cbn in E'.
        destruct (lin_inj phi i' j' k' i j k) as (-> & -> & ->); auto; try lia.
Qed.
