(** Theorems about the scene builders: meshes (C137), the box stack (C138) and the ground (C139). *)
From Verif Require Import Base QuatModel QuatProofs VecModel VecProofs BvhModel BvhSpec GridModel VolModel RigidTypes RigidSpec CollModel BaryModel MassModel MassSpec MassProofs MassProofs2 Prop_Mass
  StepModel StepProofs StepProofs2 ReadySpec ReadyProofs ConSpec ApiModel ApiSpec ApiProofs RotModel RotProofs QuatMatProofs Prop_Rotation Prop_Api Prop_Api2
  SurfModel SurfSpec SceneModel SceneSpec SceneMesh SceneProofs SceneShape SceneBox ScenePlace.
From Coq Require Import Permutation.
Open Scope R_scope.

(** ** C138: a stack of boxes *)
Lemma box_hull w h d p : in_hull (fst (create_box w h d)) p -> 0 < w -> 0 < h -> 0 < d ->
  - w / 2 <= vx p <= w / 2 /\ - h / 2 <= vy p <= h / 2 /\ - d / 2 <= vz p <= d / 2.
Proof.
  intros H Hw Hh Hd. change (fst (create_box w h d)) with (boxV w h d) in H. rewrite boxV_eq in H.
  assert (G : forall n c, Forall (fun v => vdot n v <= c) [mkV (- w / 2) (- h / 2) (- d / 2); mkV (w / 2) (- h / 2) (- d / 2); mkV (- w / 2) (h / 2) (- d / 2); mkV (w / 2) (h / 2) (- d / 2);
    mkV (- w / 2) (- h / 2) (d / 2); mkV (w / 2) (- h / 2) (d / 2); mkV (- w / 2) (h / 2) (d / 2); mkV (w / 2) (h / 2) (d / 2)] -> vdot n p <= c).
  { intros n c F. apply H. rewrite Forall_forall in F. exact F. }
  destruct p as [x y z]. cbn [vx vy vz].
  assert (X1 := G (mkV 1 0 0) (w / 2)). assert (X2 := G (mkV (-1) 0 0) (w / 2)). assert (Y1 := G (mkV 0 1 0) (h / 2)). assert (Y2 := G (mkV 0 (-1) 0) (h / 2)).
  assert (Z1 := G (mkV 0 0 1) (d / 2)). assert (Z2 := G (mkV 0 0 (-1)) (d / 2)). unfold vdot in *. cbn [vx vy vz] in *.
  specialize (X1 ltac:(repeat (apply Forall_cons; [cbn [vx vy vz]; lra|]); apply Forall_nil)). specialize (X2 ltac:(repeat (apply Forall_cons; [cbn [vx vy vz]; lra|]); apply Forall_nil)). specialize (Y1 ltac:(repeat (apply Forall_cons; [cbn [vx vy vz]; lra|]); apply Forall_nil)). specialize (Y2 ltac:(repeat (apply Forall_cons; [cbn [vx vy vz]; lra|]); apply Forall_nil)).
  specialize (Z1 ltac:(repeat (apply Forall_cons; [cbn [vx vy vz]; lra|]); apply Forall_nil)). specialize (Z2 ltac:(repeat (apply Forall_cons; [cbn [vx vy vz]; lra|]); apply Forall_nil)). split; [|split]; split; lra.
Qed.
Lemma Ry_unit t : is_unit (q_Ry t).
Proof. unfold is_unit, q_Ry, qdot; cbn. pose proof (sin2_cos2 (t / 2)) as H. unfold Rsqr in H. lra. Qed.
Lemma Ry_rotate t v : q_rotate (q_Ry t) v = mkV (vx v * cos t + vz v * sin t) (vy v) (vz v * cos t - vx v * sin t).
Proof.
  assert (EC : cos t = cos (t / 2) * cos (t / 2) - sin (t / 2) * sin (t / 2)). { rewrite <- cos_plus. f_equal. field. }
  assert (ES : sin t = 2 * (sin (t / 2) * cos (t / 2))). { replace t with (2 * (t / 2)) at 1 by field. rewrite sin_2a. ring. }
  pose proof (sin2_cos2 (t / 2)) as H. unfold Rsqr in H. rewrite EC, ES. clear EC ES. unfold q_Ry. revert H. generalize (cos (t / 2)) (sin (t / 2)). intros c s H.
  rewrite q_rotate_formula. destruct v as [x y z]. cbn [qs qx qy qz vx vy vz]. apply (f_equal3 mkV); [ring| |ring]. transitivity (y * (s * s + c * c)); [ring|rewrite H; ring].
Qed.

Lemma seq_hit {A} (f : nat -> A) K k x : nth_error (map f (seq 0 K)) k = Some x -> (k < K)%nat /\ x = f k.
Proof.
  intros H. assert (HK : (k < K)%nat). { assert (L : (k < length (map f (seq 0 K)))%nat) by (apply nth_error_Some; congruence). rewrite map_length, seq_length in L. exact L. }
  split; [exact HK|]. rewrite nth_error_map, (nth_error_nth' (seq 0 K) 0%nat) in H by (rewrite seq_length; exact HK). rewrite seq_nth in H by exact HK. cbn in H. congruence.
Qed.
Lemma stack_item (fresh : nat -> name) (h : R) (K k : nat) : (k < K)%nat -> In (fresh (S k), fresh 0%nat, mkV 0 (INR k * h + h / 2) 0, q_Ry (INR k * PI / 4))
  (map (fun k => (fresh (S k), fresh 0%nat, mkV 0 (INR k * h + h / 2) 0, q_Ry (INR k * PI / 4))) (seq 0 K)).
Proof. intros H. apply in_map_iff. exists k. split; [reflexivity|]. apply in_seq. lia. Qed.
Theorem C138_box_stack eig sd e fresh w h d K density mat : eig_diagonal eig -> reach eig sd sane_params e -> (2 <= p_resolution (e_params e))%Z ->
  new_names e fresh -> exist_material (e_lib e) mat = true -> 0 < w -> 0 < h -> 0 < d ->
  exists e' names, create_box_stack eig sd fresh w h d K density mat e = (Done e', names) /\ reach eig sd sane_params e' /\
    adds e e' names /\ e_hinges e' = e_hinges e /\ length names = K /\ NoDup names /\
    (forall k n, nth_error names k = Some n ->
       stands e' n (create_box w h d) (mkV 0 (INR k * h + h / 2) 0) (q_Ry (INR k * PI / 4)) /\
       exists m, pos_up_to_clamp (w * h * d) m /\ at_rest e' n false mat (m * density)) /\
    (set_up e -> density <> 0 -> big_box w h d -> set_up e').
Proof.
  intros HE HR HN (HI & HF) HM Hw Hh Hd.
  destruct (make_one_shape eig sd e (fresh 0%nat) (boxV w h d) (boxT w h d) HE HR HN (proj2 (HF 0%nat)) (box_good w h d Hw Hh Hd)) as (s & ES & R1 & EN & FS & IS).
  set (e1 := set_shapes e (e_shapes e ++ [s])) in *.
  set (l := map (fun k => (fresh (S k), mkV 0 (INR k * h + h / 2) 0, q_Ry (INR k * PI / 4))) (seq 0 K)).
  assert (ND : NoDup (map (fun k => fresh (S k)) (seq 0 K))). { apply FinFun.Injective_map_NoDup; [|apply seq_NoDup]. intros a b H. apply HI in H. lia. }
  assert (EN3 : map nm3 l = stack_names fresh K). { unfold l, stack_names. rewrite map_map. reflexivity. }
  destruct (one_by_one eig sd (fresh 0%nat) s mat density l e1 R1 FS HM) as (bs & EE & FB & R2).
  { rewrite EN3. exact ND. }
  { intros x Hx. apply in_map_iff in Hx as (k & <- & _). exact (proj1 (HF (S k))). }
  apply (one_by_one_built e1 (fresh 0%nat)) in FB; [|exact FS].
  set (l' := map _ l) in FB. set (mesh := fun _ : name => (boxV w h d, boxT w h d)).
  assert (EL : l' = map (fun k => (fresh (S k), fresh 0%nat, mkV 0 (INR k * h + h / 2) 0, q_Ry (INR k * PI / 4))) (seq 0 K)). { unfold l', l. rewrite map_map. reflexivity. }
  destruct (builder_result eig sd e [s] false mat density mesh l' bs R2) as (HA & HH & HS & HU).
  { intros x Hx. rewrite EL in Hx. apply in_map_iff in Hx as (k & <- & _). exact (proj1 (HF (S k))). }
  { exact FB. }
  { intros x s' Hx Hs'. rewrite EL in Hx. apply in_map_iff in Hx as (k & <- & _). cbn [it_shape] in Hs'. fold e1 in Hs'. assert (s' = s) by congruence. subst s'. exact IS. }
  fold e1 in HA, HH, HS, HU. change (e_bodies e1) with (e_bodies e) in *. 
  assert (EM : map it_name l' = stack_names fresh K). { rewrite EL, map_map. reflexivity. }
  exists (set_bodies e1 (e_bodies e ++ bs)), (stack_names fresh K).
  split. { unfold create_box_stack. apply f_equal2; [|reflexivity]. change (create_box w h d) with (boxV w h d, boxT w h d). rewrite ES. cbn [andthen]. fold e1.
    unfold l in EE. rewrite each_map in EE. exact EE. }
  split; [exact R2|]. split; [rewrite <- EM; exact HA|]. split; [exact HH|].
  split; [unfold stack_names; rewrite map_length, seq_length; reflexivity|]. split; [exact ND|]. split.
  - intros k n Hk. apply seq_hit in Hk as [HkK ->].
    assert (Hx := HS _ ltac:(rewrite EL; exact (stack_item fresh h K k HkK))). destruct Hx as [H1 (m & H2 & H3)]. cbn [it_name it_shape it_r it_q mesh fst snd] in *.
    split; [exact (H1 (Ry_unit _))|]. exists m. rewrite (box_volume w h d) in H2. split; [exact H2|exact H3].
  - intros U D B. apply HU; auto. intros x _. exact (box_counted w h d Hw Hh Hd B).
Qed.
(** the boxes lie on top of one another: box k fills the heights from k h to (k+1) h, and two boxes share at most the plane between them *)
Theorem C138_on_top eig sd e fresh w h d K density mat e' names : eig_diagonal eig -> reach eig sd sane_params e -> (2 <= p_resolution (e_params e))%Z ->
  new_names e fresh -> exist_material (e_lib e) mat = true -> 0 < w -> 0 < h -> 0 < d ->
  create_box_stack eig sd fresh w h d K density mat e = (Done e', names) ->
  (forall k n p, nth_error names k = Some n -> occupies e' n p -> INR k * h <= vy p <= INR (S k) * h) /\
  (forall j k n m p, (j < k)%nat -> nth_error names j = Some n -> nth_error names k = Some m -> occupies e' n p -> occupies e' m p -> k = S j /\ vy p = INR k * h) /\
  (forall k n m, nth_error names k = Some n -> nth_error names (S k) = Some m -> occupies e' n (mkV 0 (INR (S k) * h) 0) /\ occupies e' m (mkV 0 (INR (S k) * h) 0)).
Proof.
  intros HE HR HN HF HM Hw Hh Hd H. destruct (C138_box_stack eig sd e fresh w h d K density mat HE HR HN HF HM Hw Hh Hd) as (e1 & ns & E & _ & _ & _ & _ & _ & HS & _).
  rewrite E in H. assert (e1 = e') by congruence. assert (ns = names) by congruence. subst e1 ns. clear H E.
  assert (SLAB : forall k n p, nth_error names k = Some n -> occupies e' n p -> INR k * h <= vy p <= INR (S k) * h).
  { intros k n p Hn Ho. destruct (HS k n Hn) as [St _]. destruct (stands_inside _ _ _ _ _ _ (Ry_unit _) St Ho) as (x & -> & Hx).
    apply box_hull in Hx; auto. unfold at_pose. rewrite Ry_rotate. cbn [vadd vy]. rewrite S_INR. lra. }
  split; [exact SLAB|]. split.
  - intros j k n m p Hjk Hn Hm Hp Hq. pose proof (SLAB _ _ _ Hn Hp) as A. pose proof (SLAB _ _ _ Hm Hq) as B.
    assert (L : INR (S j) <= INR k) by (apply le_INR; lia). assert (INR k <= INR (S j)) by nra. assert (EK : INR k = INR (S j)) by lra. apply INR_eq in EK. subst k. split; [reflexivity|lra].
  - assert (IN : forall k n s, nth_error names k = Some n -> -1 <= s <= 1 -> occupies e' n (mkV 0 (INR k * h + h / 2 + s * h / 2) 0)).
    { intros k n s Hn Hs. destruct (HS k n Hn) as [St _]. apply (stands_occupies _ _ _ _ _ _ St). intros u c Hc.
      change (fst (create_box w h d)) with (boxV w h d) in Hc. rewrite boxV_eq in Hc. set (q := q_Ry (INR k * PI / 4)) in *.
      assert (V : forall v, In v (boxV w h d) -> vdot (q_rotate (q_conj q) u) v + vdot u (mkV 0 (INR k * h + h / 2) 0) <= c).
      { intros v Hv. rewrite <- at_pose_dot by apply Ry_unit. apply Hc. apply in_map. rewrite <- boxV_eq. exact Hv. }
      rewrite boxV_eq in V. set (a := q_rotate (q_conj q) u) in *.
      pose proof (V (mkV (- w / 2) (- h / 2) (- d / 2)) ltac:(cbn; auto 10)) as V0. pose proof (V (mkV (w / 2) (- h / 2) (d / 2)) ltac:(cbn; auto 10)) as V1.
      pose proof (V (mkV (- w / 2) (h / 2) (- d / 2)) ltac:(cbn; auto 10)) as V2. pose proof (V (mkV (w / 2) (h / 2) (d / 2)) ltac:(cbn; auto 10)) as V3.
      assert (Ey : vy a = vy u). { transitivity (vdot (q_rotate (q_conj q) u) (mkV 0 1 0)); [unfold a, vdot; cbn; ring|].
        assert (Q : vdot u (q_rotate q (mkV 0 1 0)) = vdot (q_rotate (q_conj q) u) (mkV 0 1 0)). { pose proof (at_pose_dot vzero q u (mkV 0 1 0) (Ry_unit _)) as Q. unfold at_pose in Q. unfold vzero, vdot, vadd in *; cbn in *. lra. }
        rewrite <- Q. unfold q. rewrite Ry_rotate. unfold vdot; cbn. ring. }
      unfold vdot in *. cbn [vx vy vz] in *. rewrite Ey in *. assert (0 < h * (1 + s) \/ h * (1 + s) = 0) by nra. 
      assert (A1 : vy u * (- h / 2) + vy u * (INR k * h + h / 2) <= c) by lra. assert (A2 : vy u * (h / 2) + vy u * (INR k * h + h / 2) <= c) by lra.
      apply Rle_trans with ((1 - s) / 2 * (vy u * (- h / 2) + vy u * (INR k * h + h / 2)) + (1 + s) / 2 * (vy u * (h / 2) + vy u * (INR k * h + h / 2))).
      { apply Req_le. field. }
      apply Rle_trans with ((1 - s) / 2 * c + (1 + s) / 2 * c); [|apply Req_le; field]. apply Rplus_le_compat; apply Rmult_le_compat_l; lra. }
    intros k n m Hn Hm. split.
    + replace (mkV 0 (INR (S k) * h) 0) with (mkV 0 (INR k * h + h / 2 + 1 * h / 2) 0); [apply IN; [auto|lra]|]. rewrite S_INR. f_equal. field.
    + replace (mkV 0 (INR (S k) * h) 0) with (mkV 0 (INR (S k) * h + h / 2 + -1 * h / 2) 0); [apply IN; [auto|lra]|]. f_equal. field.
Qed.
(** the stack can be simulated *)
Theorem C138_simulates eig sd e fresh w h d K density mat e' names time : eig_diagonal eig -> reach eig sd sane_params e -> (2 <= p_resolution (e_params e))%Z ->
  new_names e fresh -> exist_material (e_lib e) mat = true -> 0 < w -> 0 < h -> 0 < d -> set_up e -> density <> 0 -> big_box w h d -> 0 < time -> 0 < p_time_step (e_params e) ->
  create_box_stack eig sd fresh w h d K density mat e = (Done e', names) ->
  exists e2 dts, lsum dts = time /\ exists n, forall fuel, (n <= fuel)%nat -> simulate fuel time e' = SimDone e2 dts.
Proof.
  intros HE HR HN HF HM Hw Hh Hd HU HD HB HT HS H. destruct (C138_box_stack eig sd e fresh w h d K density mat HE HR HN HF HM Hw Hh Hd) as (e1 & ns & E & R1 & HA & _ & _ & _ & _ & U).
  rewrite E in H. assert (e1 = e') by congruence. subst e1. destruct HA as (_ & _ & _ & _ & _ & _ & EP & _).
  destruct (C84_simulate eig sd e' time R1 (U HU HD HB) HT) as (e2 & dts & K1 & _ & K2); [rewrite EP; exact HS|]. exists e2, dts. auto.
Qed.
Lemma diag_eig_diagonal : eig_diagonal diag_eig.
Proof. intros [a b c]. unfold eigen_basis, diag_eig, mdiag, mmul, mT, mid; cbn. split; f_equal; ring. Qed.
Definition numbered (i : nat) : name := [i].
Lemma numbered_new : new_names create_engine numbered.
Proof. split; [intros i j H; injection H; auto|]. intros i. cbn. auto. Qed.
(** three boxes in a new engine *)
Example C138_nonvacuous sd : reach diag_eig sd sane_params create_engine /\ (2 <= p_resolution (e_params create_engine))%Z /\ exist_material (e_lib create_engine) default_name = true /\
  eig_diagonal diag_eig /\ new_names create_engine numbered /\ set_up create_engine /\ big_box 2 1 2 /\
  exists e', create_box_stack diag_eig sd numbered 2 1 2 3 1 default_name create_engine = (Done e', [[1]; [2]; [3]]%nat) /\
    stands e' [2]%nat (create_box 2 1 2) (mkV 0 (3 / 2) 0) (q_Ry (PI / 4)) /\ at_rest e' [3]%nat false default_name 4.
Proof.
  assert (R0 : reach diag_eig sd sane_params create_engine). { apply reach_new. split; [reflexivity|]. cbn. split; [lia|lra]. }
  assert (HM : exist_material (e_lib create_engine) default_name = true) by reflexivity.
  assert (HP : (2 <= p_resolution (e_params create_engine))%Z) by (cbn; lia).
  split; [exact R0|]. split; [exact HP|]. split; [exact HM|]. split; [exact diag_eig_diagonal|]. split; [exact numbered_new|].
  split; [split; [|split]; cbn; tauto|]. split; [unfold big_box, tiny; repeat split; lra|].
  destruct (C138_box_stack diag_eig sd create_engine numbered 2 1 2 3 1 default_name diag_eig_diagonal R0 HP numbered_new HM ltac:(lra) ltac:(lra) ltac:(lra)) as (e' & ns & E & _ & _ & _ & _ & _ & HS & _).
  assert (EN : ns = [[1]; [2]; [3]]%nat) by (apply (f_equal snd) in E; symmetry; exact E). subst ns. exists e'. split; [exact E|].
  destruct (HS 1%nat [2]%nat eq_refl) as [H1 _]. destruct (HS 2%nat [3]%nat eq_refl) as [_ (m & H2 & H3)]. split.
  - replace (3 / 2) with (INR 1 * 1 + 1 / 2) by (cbn; lra). replace (PI / 4) with (INR 1 * PI / 4) by (cbn; lra). exact H1.
  - apply pos_clamp_val in H2; [|unfold tiny; lra]. replace 4 with (m * 1) by lra. exact H3.
Qed.

(** ** C139: the ground *)
Theorem C139_ground eig sd e fresh r q density mat : eig_diagonal eig -> reach eig sd sane_params e -> (2 <= p_resolution (e_params e))%Z ->
  new_names e fresh -> exist_material (e_lib e) mat = true -> is_unit q ->
  exists e', create_ground eig sd fresh r q density mat e = Done e' /\ reach eig sd sane_params e' /\ adds e e' [fresh 1%nat] /\ e_hinges e' = e_hinges e /\
    stands e' (fresh 1%nat) (create_box 100 1 100) (vsub r (vscale (1/2) (q_rotate q (mkV 0 1 0)))) q /\
    at_rest e' (fresh 1%nat) true mat (10000 * density) /\
    (forall p, occupies e' (fresh 1%nat) p -> let up := q_rotate q (mkV 0 1 0) in -1 <= vdot up (vsub p r) <= 0) /\
    occupies e' (fresh 1%nat) r /\
    (set_up e -> density <> 0 -> set_up e').
Proof.
  intros HE HR HN (HI & HF) HM HQ.
  assert (G : good_stone (boxV 100 1 100) (boxT 100 1 100)) by (apply box_good; lra).
  destruct (make_one_shape eig sd e (fresh 0%nat) _ _ HE HR HN (proj2 (HF 0%nat)) G) as (s & ES & R1 & EN & FS & IS).
  set (e1 := set_shapes e (e_shapes e ++ [s])) in *. set (r' := vadd (q_rotate q (mkV 0 (- (1/2)) 0)) r).
  assert (EQ : q_prod q q_identity = q). { apply q_prod_id_r. }
  assert (HB : find_body e1 (fresh 1%nat) = None). { unfold find_body. destruct (find _ (e_bodies e1)) as [b|] eqn:E; auto. exfalso. apply (find_some b_name) in E as [H1 H2]. apply (proj1 (HF 1%nat)). rewrite <- H2. apply in_map. exact H1. }
  destruct (place_ok eig sd e1 (fresh 1%nat) (fresh 0%nat) r' q s R1 HB FS) as (t & EP).
  set (b := stone s t (length (e_bodies e1)) (fresh 1%nat) r' q) in *.
  assert (M1 : has_mid (set_bodies e1 (e_bodies e1 ++ [b])) (e_bodies e1) b [] (fresh 1%nat)). { split; [reflexivity|]. split; [exact (proj1 (HF 1%nat))|]. split; [auto|reflexivity]. }
  assert (M1' := finish_ok _ _ _ _ _ true mat density s M1 eq_refl HM). cbn [type_name] in M1'. rewrite set_bodies_twice in M1'.
  set (bs := [finished s true mat density b]) in *.
  assert (R3 : reach eig sd sane_params (set_bodies e1 (e_bodies e1 ++ bs))). { eapply finish_reach; [|exact M1']. eapply place_reach; [exact R1|exact EP]. }
  set (mesh := fun _ : name => (boxV 100 1 100, boxT 100 1 100)). set (l := [(fresh 1%nat, fresh 0%nat, r', q)] : list item).
  destruct (builder_result eig sd e [s] true mat density mesh l bs R3) as (HA & HH & HS & HU).
  { intros x [<-|[]]. exact (proj1 (HF 1%nat)). }
  { constructor; [|constructor]. exists s, t, (length (e_bodies e1)). split; [exact FS|reflexivity]. }
  { intros x s' [<-|[]] Hs'. cbn [it_shape] in Hs'. fold e1 in Hs'. assert (s' = s) by congruence. subst s'. exact IS. }
  fold e1 in HA, HH, HS, HU. change (e_bodies e1) with (e_bodies e) in *. exists (set_bodies e1 (e_bodies e ++ bs)).
  assert (Er : r' = vsub r (vscale (1/2) (q_rotate q (mkV 0 1 0)))).
  { unfold r'. replace (mkV 0 (- (1/2)) 0) with (vscale (-(1/2)) (mkV 0 1 0)) by (unfold vscale; cbn; f_equal; ring). rewrite q_rotate_scale. generalize (q_rotate q (mkV 0 1 0)). intros [a0 a1 a2]. destruct r. unfold vadd, vsub, vscale; cbn. f_equal; ring. }
  destruct (HS _ (or_introl eq_refl)) as [S1 (m & S2 & S3)]. cbn [it_name it_shape it_r it_q mesh fst snd] in *.
  split. { unfold create_ground. change (create_box 100 1 100) with (boxV 100 1 100, boxT 100 1 100). rewrite ES. cbn [andthen]. fold e1 r'. rewrite EQ, EP. cbn [andthen]. exact M1'. }
  split; [exact R3|]. split; [exact HA|]. split; [exact HH|]. split; [rewrite <- Er; exact (S1 HQ)|].
  split. { rewrite (box_volume 100 1 100) in S2. apply pos_clamp_val in S2; [|unfold tiny; lra]. replace (10000 * density) with (m * density) by (rewrite S2; ring). exact S3. }
  set (up := q_rotate q (mkV 0 1 0)) in *.
  assert (UU : vdot up up = 1). { unfold up. rewrite q_rotate_dot. unfold is_unit in HQ. rewrite HQ. unfold vdot; cbn. ring. }
  assert (UX : forall x, vdot up (vsub (at_pose r' q x) r) = vy x - 1 / 2).
  { intros x. rewrite Er. unfold at_pose. 
    assert (Q : vdot up (q_rotate q x) = vy x). { unfold up. rewrite q_rotate_dot. unfold is_unit in HQ. rewrite HQ. unfold vdot; cbn. ring. }
    transitivity (vdot up (q_rotate q x) - 1 / 2 * vdot up up); [unfold vdot, vsub, vadd, vscale; cbn; ring|]. rewrite Q, UU. ring. }
  split. { intros p Hp. cbv zeta. destruct (stands_inside _ _ _ _ _ _ HQ (S1 HQ) Hp) as (x & -> & Hx). apply box_hull in Hx; try lra. fold up. rewrite UX. lra. }
  split. { apply (stands_occupies _ _ _ _ _ _ (S1 HQ)). intros n c Hc. assert (V : forall v, In v (boxV 100 1 100) -> vdot (q_rotate (q_conj q) n) v + vdot n r' <= c).
      { intros v Hv. rewrite <- at_pose_dot by auto. apply Hc. apply in_map. exact Hv. }
      rewrite boxV_eq in V. pose proof (V (mkV (- 100 / 2) (1 / 2) (- 100 / 2)) ltac:(cbn; auto 10)) as V2. pose proof (V (mkV (100 / 2) (1 / 2) (100 / 2)) ltac:(cbn; auto 10)) as V3.
      assert (E : vdot n r = vdot n (at_pose r' q (mkV 0 (1/2) 0))).
      { f_equal. rewrite Er. unfold at_pose. replace (mkV 0 (1/2) 0) with (vscale (1/2) (mkV 0 1 0)) by (unfold vscale; cbn; f_equal; ring). rewrite q_rotate_scale. fold up. generalize up. intros [a0 a1 a2]. destruct r. unfold vadd, vsub, vscale; cbn. f_equal; ring. }
      rewrite E, at_pose_dot by auto. set (a := q_rotate (q_conj q) n) in *. unfold vdot in *. cbn [vx vy vz] in *. lra. }
  intros U D. apply HU; auto. intros x _. apply box_counted; try lra. unfold big_box, tiny; repeat split; lra.
Qed.
Example C139_nonvacuous sd : exists e', create_ground diag_eig sd numbered vzero q_identity 1 default_name create_engine = Done e' /\ at_rest e' [1]%nat true default_name 10000.
Proof.
  assert (R0 : reach diag_eig sd sane_params create_engine). { apply reach_new. split; [reflexivity|]. cbn. split; [lia|lra]. }
  destruct (C139_ground diag_eig sd create_engine numbered vzero q_identity 1 default_name diag_eig_diagonal R0 ltac:(cbn; lia) numbered_new eq_refl ltac:(unfold is_unit, qdot, q_identity; cbn; ring)) as (e' & E & _ & _ & _ & _ & HA & _).
  exists e'. split; [exact E|]. replace 10000 with (10000 * 1) by ring. exact HA.
Qed.
Print Assumptions C138_box_stack.
Print Assumptions C138_on_top.
Print Assumptions C138_simulates.
Print Assumptions C139_ground.
