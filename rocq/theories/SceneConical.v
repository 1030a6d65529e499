(** The truncated cones of the scene builders are meshes from which create_shape makes a shape. *)
From Verif Require ListProofs PolyProofs.
From Verif Require Import Base QuatModel QuatProofs VecModel VecProofs BvhModel BvhSpec BvhProofs GridModel VolModel RigidTypes RigidSpec CollModel BaryModel MassModel MassSpec MassProofs
  StepModel RotProofs QuatMatProofs SurfModel SurfSpec SurfProofs Prop_Geometry Prop_Surface SceneModel SceneSpec SceneMesh SceneProofs SceneShape Prop_Scene Prop_SceneLattice Prop_Sweep.
Open Scope R_scope.

Lemma turn_zero t v : turn t v = vzero -> v = vzero.
Proof. intros H. assert (E : turn (- t) (turn t v) = turn (- t) vzero) by (rewrite H; reflexivity). rewrite turn_add in E. replace (- t + t) with 0 in E by ring. rewrite turn_0 in E. rewrite E. apply turn_axis; reflexivity. Qed.
Lemma turn_vsub t u v : turn t (vsub u v) = vsub (turn t u) (turn t v).
Proof. unfold turn, rot, vsub. cbn [vx vy vz]. f_equal; ring. Qed.
Lemma turn_vcross t u v : turn t (vcross u v) = vcross (turn t u) (turn t v).
Proof.
  unfold turn. pose proof (sin2_cos2 t) as H. unfold Rsqr in H. revert H. generalize (cos t) (sin t). intros C S H. destruct u as [a b c], v as [x y z]. unfold rot, vcross. cbn [vx vy vz].
  f_equal; [ring| |ring]. transitivity ((S * S + C * C) * (c * x - a * z)); [rewrite H; ring|ring].
Qed.
Lemma turn_flat t a b c : vcross (vsub b a) (vsub c a) <> vzero -> vcross (vsub (turn t b) (turn t a)) (vsub (turn t c) (turn t a)) <> vzero.
Proof. intros H E. apply H. apply (turn_zero t). rewrite turn_vcross, !turn_vsub. exact E. Qed.
Lemma same_angle x y : 0 <= x < 2 * PI -> 0 <= y < 2 * PI -> cos x = cos y -> sin x = sin y -> x = y.
Proof.
  assert (G : forall x y, 0 <= x < 2 * PI -> 0 <= y -> y < x -> cos x = cos y -> sin x = sin y -> False).
  { clear. intros x y Hx Hy L C S. assert (E : cos (x - y) = 1). { rewrite cos_minus, C, S. pose proof (sin2_cos2 y) as H. unfold Rsqr in H. lra. }
    replace (x - y) with (2 * ((x - y) / 2)) in E by field. rewrite cos_2a_sin in E. assert (P : 0 < sin ((x - y) / 2)) by (apply sin_gt_0; lra). nra. }
  intros Hx Hy C S. destruct (Rtotal_order x y) as [L|[L|L]]; [exfalso; apply (G y x); auto; lra|exact L|exfalso; apply (G x y); auto; lra].
Qed.

Lemma tri_inj (a b c i j k : Z) : (a, b, c) = (i, j, k) -> i = a /\ j = b /\ k = c.
Proof. intros H. injection H. intros; subst; auto. Qed.
Section conical.
  Variables (ra rb hh : R) (J : Z).
  Hypotheses (Ha : 0 < ra) (Hb : 0 < rb) (Hh : 0 < hh) (HJ : (3 <= J)%Z).
  Let a := mkV ra 0 0. Let b := mkV rb hh 0. Let d := 2 * PI / IZR J.
  Let prof := [mkV 0 0 0; a; b; mkV 0 hh 0].
  Let ring (j : nat) := [turn (INR j * d) a; turn (INR j * d) b].
  Let rings := flat_map ring (seq 0 (Z.to_nat J)).
  Definition conV : list vec3 := flat_map (sweep_slice prof d) (zupto J) ++ [mkV 0 hh 0; mkV 0 0 0].
  Definition conT : list tri := sweep_bottom 2 J (2 * J + 1) ++ sweep_middle 2 J ++ sweep_top 4 2 J (2 * J).
  Lemma con_eq : create_conical ra rb hh J = Some (conV, conT).
  Proof.
    unfold create_conical, profile_sweep. cbn [length Z.of_nat Pos.of_succ_nat Pos.succ Z.leb Z.compare Pos.compare Pos.compare_cont].
    destruct (Z.leb_spec J 2); [lia|]. unfold conV, conT, prof, a, b, d. cbn [last hd]. change (4 - 2)%Z with 2%Z. replace (2 * J + 2 - 1)%Z with (2 * J + 1)%Z by lia. replace (2 * J + 2 - 2)%Z with (2 * J)%Z by lia. reflexivity.
  Qed.
  Lemma conV_eq : conV = rings ++ [mkV 0 hh 0; mkV 0 0 0].
  Proof.
    unfold conV, rings. f_equal. unfold zupto. rewrite flat_map_concat_map, map_map, <- flat_map_concat_map. apply flat_map_ext. intros j. unfold ring, sweep_slice, prof, inner. cbn [tl removelast map].
    rewrite !Ru_turn, <- INR_IZR_INZ. reflexivity.
  Qed.
  Lemma prof_ok : profile_ok prof.
  Proof. unfold profile_ok, prof, a, b. cbn. repeat split. repeat constructor. Qed.
  Lemma Jpos : 3 <= IZR J. Proof. apply (IZR_le 3); lia. Qed.
  Lemma d_bounds : 0 < d < PI.
  Proof.
    pose proof Jpos. pose proof PI_RGT_0. unfold d. split; [apply Rdiv_lt_0_compat; lra|]. apply (Rmult_lt_reg_r (IZR J)); [lra|]. replace (2 * PI / IZR J * IZR J) with (2 * PI) by (field; lra). nra.
  Qed.
  Lemma sin_d : 0 < sin d. Proof. pose proof d_bounds. apply sin_gt_0; lra. Qed.
  Lemma angle_j j : (j < Z.to_nat J)%nat -> 0 <= INR j * d < 2 * PI.
  Proof.
    intros H. pose proof d_bounds as [D _]. pose proof (pos_INR j). split; [nra|]. assert (L : INR j < IZR J) by (rewrite INR_IZR_INZ; apply IZR_lt; lia).
    replace (2 * PI) with (IZR J * d); [nra|]. unfold d. field. pose proof Jpos. lra.
  Qed.
  Lemma con_len : length conV = (2 * Z.to_nat J + 2)%nat.
  Proof. rewrite conV_eq, app_length. unfold rings. rewrite (flat_map_len _ 2) by reflexivity. rewrite seq_length. cbn. lia. Qed.
  Lemma con_ring_inj j k v w : (j < Z.to_nat J)%nat -> (k < Z.to_nat J)%nat -> 0 < vx v -> vz v = 0 -> vx w = vx v -> vz w = 0 -> turn (INR j * d) v = turn (INR k * d) w -> j = k.
  Proof.
    intros Lj Lk P Z E Z' H. unfold turn, rot in H. injection H as H0 _ H2. rewrite Z, Z', E in *. pose proof (angle_j j Lj). pose proof (angle_j k Lk).
    assert (A : INR j * d = INR k * d) by (apply same_angle; auto; nra). apply INR_eq. pose proof d_bounds. nra.
  Qed.
  Lemma con_nodup : NoDup conV.
  Proof.
    rewrite conV_eq. assert (N : NoDup rings).
    { unfold rings. apply ListProofs.NoDup_flat_map; [apply seq_NoDup| |].
      - intros j _. unfold ring. constructor; [|constructor; [intros []|constructor]]. intros [H|[]]. apply (f_equal vy) in H. cbn in H. lra.
      - intros j k v Hj Hk. apply in_seq in Hj, Hk. intros [<-|[<-|[]]] [H|[H|[]]].
        + apply (con_ring_inj j k a a); [lia|lia|exact Ha|reflexivity|reflexivity|reflexivity|symmetry; exact H].
        + exfalso. apply (f_equal vy) in H. cbn in H. lra.
        + exfalso. apply (f_equal vy) in H. cbn in H. lra.
        + apply (con_ring_inj j k b b); [lia|lia|exact Hb|reflexivity|reflexivity|reflexivity|symmetry; exact H]. }
    assert (O : forall v, In v rings -> vx v * vx v + vz v * vz v <> 0).
    { intros v Hv. unfold rings in Hv. apply in_flat_map in Hv as (j & _ & Hv). pose proof (sin2_cos2 (INR j * d)) as Q. unfold Rsqr in Q. destruct Hv as [<-|[<-|[]]]; unfold turn, rot, a, b; cbn [vx vy vz]; revert Q; generalize (cos (INR j * d)) (sin (INR j * d)); intros C S Q.
      - replace ((C * ra + S * 0) * (C * ra + S * 0) + (- S * ra + C * 0) * (- S * ra + C * 0)) with (ra * ra * (S * S + C * C)) by ring. rewrite Q. nra.
      - replace ((C * rb + S * 0) * (C * rb + S * 0) + (- S * rb + C * 0) * (- S * rb + C * 0)) with (rb * rb * (S * S + C * C)) by ring. rewrite Q. nra. }
    apply PolyProofs.NoDup_app_intro; auto.
    - constructor; [|constructor; [intros []|constructor]]. intros [H|[]]. apply (f_equal vy) in H. cbn in H. lra.
    - intros v Hv [<-|[<-|[]]]; apply (O _ Hv); cbn; ring.
  Qed.
  (** the triangles are not degenerate *)
  Lemma tri_bottom : vcross (vsub (turn d a) (mkV 0 0 0)) (vsub a (mkV 0 0 0)) <> vzero.
  Proof. unfold turn, rot, a, vcross, vsub. intros E. apply (f_equal vy) in E. cbn [vx vy vz vzero] in E. pose proof sin_d as SD. assert (P : 0 < ra * ra * sin d) by (apply Rmult_lt_0_compat; [nra|exact SD]). unfold vzero in E. cbn [vy] in E. lra. Qed.
  Lemma tri_mid1 : vcross (vsub (turn d a) a) (vsub (turn d b) a) <> vzero.
  Proof. unfold turn, rot, a, b, vcross, vsub. intros E. apply (f_equal vx) in E. unfold vzero in E. cbn [vx vy vz] in E. pose proof sin_d as SD. assert (P : 0 < ra * hh * sin d) by (apply Rmult_lt_0_compat; [nra|exact SD]). lra. Qed.
  Lemma tri_mid2 : vcross (vsub (turn d b) a) (vsub b a) <> vzero.
  Proof. unfold turn, rot, a, b, vcross, vsub. intros E. apply (f_equal vx) in E. unfold vzero in E. cbn [vx vy vz] in E. pose proof sin_d as SD. assert (P : 0 < rb * hh * sin d) by (apply Rmult_lt_0_compat; [nra|exact SD]). lra. Qed.
  Lemma tri_top : vcross (vsub b (mkV 0 hh 0)) (vsub (turn d b) (mkV 0 hh 0)) <> vzero.
  Proof. unfold turn, rot, b, vcross, vsub. intros E. apply (f_equal vy) in E. unfold vzero in E. cbn [vx vy vz] in E. pose proof sin_d as SD. assert (P : 0 < rb * rb * sin d) by (apply Rmult_lt_0_compat; [nra|exact SD]). lra. Qed.
  Lemma con_proper : proper_triangles conV conT.
  Proof.
    assert (HN : (3 <= length prof)%nat) by (cbn; lia).
    assert (ER : forall j i, (j < Z.to_nat J)%nat -> (i < 2)%nat -> vat conV (Z.of_nat (j * 2 + i)) = turn (INR j * d) (nth i [a; b] vzero)).
    { intros j i Hj Hi. exact (ring_at prof J j i Hj Hi). }
    assert (EN : forall j i, (j < Z.to_nat J)%nat -> (i < 2)%nat -> vat conV (((Z.of_nat j + 1) mod J) * 2 + Z.of_nat i)%Z = turn (INR j * d) (turn d (nth i [a; b] vzero))).
    { intros j i Hj Hi. exact (next_at prof J HN HJ j i Hj Hi). }
    assert (ET : vat conV (2 * J) = mkV 0 hh 0) by exact (top_at prof J HN HJ).
    assert (EB : vat conV (2 * J + 1) = mkV 0 0 0) by exact (bottom_at prof J HN HJ).
    assert (TT : forall t, mkV 0 hh 0 = turn t (mkV 0 hh 0)) by (intros; symmetry; apply turn_axis; reflexivity).
    assert (TB : forall t, mkV 0 0 0 = turn t (mkV 0 0 0)) by (intros; symmetry; apply turn_axis; reflexivity).
    intros i j k H. unfold conT in H. apply in_app_or in H. destruct H as [H|H]; [|apply in_app_or in H; destruct H as [H|H]].
    - unfold sweep_bottom in H. apply in_map_iff in H as (z & E & Hz). unfold zupto in Hz. apply in_map_iff in Hz as (n & <- & Hn). apply in_seq in Hn. apply tri_inj in E as (-> & -> & ->).
      replace (2 * ((Z.of_nat n + 1) mod J))%Z with (((Z.of_nat n + 1) mod J) * 2 + Z.of_nat 0)%Z by lia. rewrite EN by lia. replace (2 * Z.of_nat n)%Z with (Z.of_nat (n * 2 + 0)) by lia. rewrite ER by lia. rewrite EB, (TB (INR n * d)). apply turn_flat. exact tri_bottom.
    - unfold sweep_middle in H. apply in_flat_map in H as (z & Hz & H). apply in_flat_map in H as (z' & Hn & H). unfold zupto in Hn. apply in_map_iff in Hn as (n & <- & Hn). apply in_seq in Hn.
      change (zupto (2 - 1)) with [0%Z] in Hz. destruct Hz as [<-|[]]. cbv zeta in H.
      replace (Z.of_nat n * 2 + 0)%Z with (Z.of_nat (n * 2 + 0)) in H by lia. replace (Z.of_nat n * 2 + (0 + 1))%Z with (Z.of_nat (n * 2 + 1)) in H by lia.
      change (((Z.of_nat n + 1) mod J) * 2 + 0)%Z with (((Z.of_nat n + 1) mod J) * 2 + Z.of_nat 0)%Z in H. change (((Z.of_nat n + 1) mod J) * 2 + (0 + 1))%Z with (((Z.of_nat n + 1) mod J) * 2 + Z.of_nat 1)%Z in H.
      destruct H as [E|[E|[]]]; apply tri_inj in E as (-> & -> & ->); rewrite ?EN, ?ER by lia; apply turn_flat; [exact tri_mid1|exact tri_mid2].
    - unfold sweep_top in H. apply in_map_iff in H as (z & E & Hz). unfold zupto in Hz. apply in_map_iff in Hz as (n & <- & Hn). apply in_seq in Hn. apply tri_inj in E as (-> & -> & ->).
      replace (Z.of_nat n * 2 + (4 - 3))%Z with (Z.of_nat (n * 2 + 1)) by lia. rewrite ER by lia. change (4 - 3)%Z with (Z.of_nat 1). rewrite EN by lia. rewrite ET, (TT (INR n * d)). apply turn_flat. exact tri_top.
  Qed.
  Lemma con_plain : plain conV conT.
  Proof. destruct (C37_swept_shapes J 0 0 hh ra rb 0 0 0 conV conT) as (_ & C & _); [right; right; left; exact con_eq|]. unfold covers_indices in C. intros i j k H.
    assert (E : forall x y, In (x, y) [(i, j); (j, k); (k, i)] -> In (x, y) (directed_edges conT)) by (intros x y K; unfold directed_edges; apply in_flat_map; exists (i, j, k); split; [exact H|exact K]).
    split; [|split]; apply C.
    - exists i, j. split; [apply E; left; reflexivity|left; reflexivity].
    - exists j, k. split; [apply E; right; left; reflexivity|left; reflexivity].
    - exists k, i. split; [apply E; right; right; left; reflexivity|left; reflexivity]. Qed.
  Lemma con_closed : closed_mesh conT.
  Proof. destruct (C37_swept_shapes J 0 0 hh ra rb 0 0 0 conV conT) as (C & _); [right; right; left; exact con_eq|]. exact C. Qed.
  Lemma con_volume : volume conV conT = polygon_area J * hh * (ra * ra + ra * rb + rb * rb) / 3.
  Proof. apply (C154_shapes J 0 0 hh ra rb conV conT). exact con_eq. Qed.
  (** the covariance of the vertices *)
  Lemma con_sum u : rsum u conV = sumR (seq 0 (Z.to_nat J)) (fun j => u (turn (INR j * d) a) + u (turn (INR j * d) b)) + (u (mkV 0 hh 0) + u (mkV 0 0 0)).
  Proof.
    rewrite conV_eq. change (rsum u (rings ++ [mkV 0 hh 0; mkV 0 0 0])) with (sumR (rings ++ [mkV 0 hh 0; mkV 0 0 0]) u). rewrite sumR_app. f_equal; [|unfold sumR; cbn; ring_simplify; reflexivity].
    unfold rings. rewrite sumR_flat. apply sumR_ext. intros j _. unfold ring, sumR. cbn [fold_right]. lra.
  Qed.
  Lemma con_sum_trig u k1 k2 : (forall j, u (turn (INR j * d) a) + u (turn (INR j * d) b) = cos (INR j * d) * k1 + sin (INR j * d) * k2) -> u (mkV 0 hh 0) = 0 -> u (mkV 0 0 0) = 0 -> rsum u conV = 0.
  Proof. intros H H1 H2. rewrite con_sum, H1, H2. rewrite (sumR_ext _ _ (fun j => cos (INR j * d) * k1 + sin (INR j * d) * k2)) by (intros j _; apply H). unfold d. rewrite (sums_1 J HJ). ring. Qed.
  Lemma con_sum_trig2 u k : (forall j, u (turn (INR j * d) a) + u (turn (INR j * d) b) = sin (2 * (INR j * d)) * k) -> u (mkV 0 hh 0) = 0 -> u (mkV 0 0 0) = 0 -> rsum u conV = 0.
  Proof. intros H H1 H2. rewrite con_sum, H1, H2. rewrite (sumR_ext _ _ (fun j => cos (2 * (INR j * d)) * 0 + sin (2 * (INR j * d)) * k)) by (intros j _; rewrite H; ring). unfold d. rewrite (sums_2 J HJ). ring. Qed.
  Lemma con_centred : exists m, centred (centred conV) = map (fun p => vsub p (mkV 0 m 0)) conV.
  Proof.
    assert (S0 : rsum (fun p => comp p 0) conV = 0).
    { apply (con_sum_trig _ (ra + rb) 0); [|reflexivity|reflexivity]. intros j. unfold turn, rot, a, b. cbn [comp vx vy vz]. lra. }
    assert (S2 : rsum (fun p => comp p 2) conV = 0).
    { apply (con_sum_trig _ 0 (- (ra + rb))); [|reflexivity|reflexivity]. intros j. unfold turn, rot, a, b. cbn [comp vx vy vz]. lra. }
    assert (G : forall P, rsum (fun p => comp p 0) P = 0 -> rsum (fun p => comp p 2) P = 0 -> exists m, centred P = map (fun p => vsub p (mkV 0 m 0)) P).
    { intros P H0 H2. exists (vy (vmean P)). unfold centred. apply map_ext. intros p. f_equal.
      assert (F : forall Q, fold_right vadd vzero Q = mkV (rsum (fun p => comp p 0) Q) (rsum (fun p => comp p 1) Q) (rsum (fun p => comp p 2) Q)).
      { induction Q as [|q Q IH]; [reflexivity|]. cbn [fold_right]. rewrite IH. reflexivity. }
      unfold vmean. rewrite F, H0, H2. unfold vdiv, Rdiv. cbn [vx vy vz]. rewrite Rmult_0_l. reflexivity. }
    destruct (G conV S0 S2) as (m1 & E1). rewrite E1.
    assert (K : forall i, (i = 0 \/ i = 2)%nat -> rsum (fun p => comp p i) (map (fun p => vsub p (mkV 0 m1 0)) conV) = rsum (fun p => comp p i) conV).
    { intros i Hi. unfold rsum. clear - Hi. induction conV as [|p l IH]; [reflexivity|]. cbn [map fold_right]. rewrite IH. f_equal. destruct Hi as [-> | ->]; unfold vsub; cbn; ring. }
    destruct (G _ (eq_trans (K 0%nat (or_introl eq_refl)) S0) (eq_trans (K 2%nat (or_intror eq_refl)) S2)) as (m2 & E2). exists (m1 + m2). rewrite E2, map_map. apply map_ext. intros p. unfold vsub. cbn [vx vy vz]. f_equal; ring.
  Qed.
  Lemma con_cov : exists dd, covariance conV = mdiag dd.
  Proof.
    destruct con_centred as (m & E). unfold covariance. rewrite E. cbv zeta.
    assert (G : forall f, rsum f (map (fun p => vsub p (mkV 0 m 0)) conV) = rsum (fun p => f (vsub p (mkV 0 m 0))) conV).
    { intros f. unfold rsum. clear E. induction conV as [|p l IH]; [reflexivity|]. cbn [map fold_right]. rewrite IH. reflexivity. }
    assert (C01 : rsum (fun p => comp p 0 * comp p 1) (map (fun p => vsub p (mkV 0 m 0)) conV) = 0).
    { rewrite G. apply (con_sum_trig _ (ra * (0 - m) + rb * (hh - m)) 0); [|unfold vsub; cbn; ring|unfold vsub; cbn; ring]. intros j. unfold turn, rot, a, b, vsub. cbn [comp vx vy vz]. ring. }
    assert (C12 : rsum (fun p => comp p 1 * comp p 2) (map (fun p => vsub p (mkV 0 m 0)) conV) = 0).
    { rewrite G. apply (con_sum_trig _ 0 (- (ra * (0 - m) + rb * (hh - m)))); [|unfold vsub; cbn; ring|unfold vsub; cbn; ring]. intros j. unfold turn, rot, a, b, vsub. cbn [comp vx vy vz]. ring. }
    assert (C02 : rsum (fun p => comp p 0 * comp p 2) (map (fun p => vsub p (mkV 0 m 0)) conV) = 0).
    { rewrite G. apply (con_sum_trig2 _ (- (ra * ra + rb * rb) / 2)); [|unfold vsub; cbn; ring|unfold vsub; cbn; ring]. intros j. rewrite sin_2a. unfold turn, rot, a, b, vsub. cbn [comp vx vy vz]. field. }
    assert (SW : forall i j, rsum (fun p => comp p i * comp p j) (map (fun p => vsub p (mkV 0 m 0)) conV) = rsum (fun p => comp p j * comp p i) (map (fun p => vsub p (mkV 0 m 0)) conV)).
    { intros i j. unfold rsum. clear. induction (map (fun p => vsub p (mkV 0 m 0)) conV) as [|p l IH]; [reflexivity|]. cbn [fold_right]. rewrite IH. ring. }
    rewrite (SW 1 0)%nat, (SW 2 0)%nat, (SW 2 1)%nat, C01, C12, C02. unfold Rdiv. rewrite !Rmult_0_l.
    eexists (mkV _ _ _). unfold mdiag. cbn [vx vy vz]. reflexivity.
  Qed.
  Theorem con_good : good_stone conV conT.
  Proof.
    destruct (C154_sweep prof J conV conT con_eq prof_ok) as (_ & F0 & _ & F2 & SO & _).
    split; [exact con_plain|]. split; [exact con_nodup|]. split; [rewrite con_len; lia|]. split; [exact con_closed|]. split; [exact con_proper|]. split.
    { rewrite con_volume. destruct (polygon_area_bound J HJ) as [PA _]. unfold Rdiv. apply Rmult_lt_0_compat; [|lra]. apply Rmult_lt_0_compat; [apply Rmult_lt_0_compat; auto|]. nra. }
    split; [exact con_cov|]. intros i j Hi Hj Hij. left. split; [apply SO; auto|]. destruct i as [|[|[|i]]], j as [|[|[|j]]]; try lia; rewrite ?F0, ?F2; ring.
  Qed.
  (** no vertex is above or below the caps *)
  Lemma con_between v : In v conV -> 0 <= vy v <= hh.
  Proof.
    rewrite conV_eq. intros H. apply in_app_or in H. destruct H as [H|[<-|[<-|[]]]]; [|cbn; lra|cbn; lra].
    unfold rings in H. apply in_flat_map in H as (j & _ & [<-|[<-|[]]]); unfold turn, rot, a, b; cbn; lra.
  Qed.
  (** the mesh is large enough for its mass, its centre of mass and its moments of inertia to be kept *)
  Definition big_conical : Prop :=
    tiny < polygon_area J * hh * (ra * ra + ra * rb + rb * rb) / 3 /\
    tiny < hh * (ra * ra + 2 * (ra * rb) + 3 * (rb * rb)) / (4 * (ra * ra + ra * rb + rb * rb)) /\
    let across := polygon_inertia J * hh * (ra * ra * (ra * ra) + ra * ra * (ra * rb) + ra * ra * (rb * rb) + ra * rb * (rb * rb) + rb * rb * (rb * rb)) / 5 in
    let axial := polygon_area J * (hh * hh * hh) * (ra * ra + 3 * (ra * rb) + 6 * (rb * rb)) / 30 in
    tiny < across + axial /\ tiny < across + across.
  Lemma con_moments : first_moment conV conT 0 = 0 /\ first_moment conV conT 1 = polygon_area J * (hh * hh) * (ra * ra + 2 * (ra * rb) + 3 * (rb * rb)) / 12 /\ first_moment conV conT 2 = 0 /\
    let across := polygon_inertia J * hh * (ra * ra * (ra * ra) + ra * ra * (ra * rb) + ra * ra * (rb * rb) + ra * rb * (rb * rb) + rb * rb * (rb * rb)) / 5 in
    second_moment conV conT 0 0 = across /\ second_moment conV conT 2 2 = across /\ second_moment conV conT 1 1 = polygon_area J * (hh * hh * hh) * (ra * ra + 3 * (ra * rb) + 6 * (rb * rb)) / 30.
  Proof.
    destruct (C154_sweep prof J conV conT con_eq prof_ok) as (_ & F0 & F1 & F2 & _). destruct (C154_inertia prof J conV conT con_eq prof_ok) as (S1 & S0 & S2). rewrite F0, F1, F2, S0, S1, S2.
    unfold prof, a, b. cbn [along]. unfold frustum_moment, frustum_axial, frustum_across. cbn [vx vy]. generalize (polygon_area J) (polygon_inertia J). intros A I. cbv zeta. repeat split; field.
  Qed.
  Lemma con_star : star conV conT (mkV 0 0 0).
  Proof.
    assert (HN : (3 <= length prof)%nat) by (cbn; lia).
    assert (ER : forall j i, (j < Z.to_nat J)%nat -> (i < 2)%nat -> vat conV (Z.of_nat (j * 2 + i)) = turn (INR j * d) (nth i [a; b] vzero)).
    { intros j i Hj Hi. exact (ring_at prof J j i Hj Hi). }
    assert (EN : forall j i, (j < Z.to_nat J)%nat -> (i < 2)%nat -> vat conV (((Z.of_nat j + 1) mod J) * 2 + Z.of_nat i)%Z = turn (INR j * d) (turn d (nth i [a; b] vzero))).
    { intros j i Hj Hi. exact (next_at prof J HN HJ j i Hj Hi). }
    assert (ET : vat conV (2 * J) = mkV 0 hh 0) by exact (top_at prof J HN HJ).
    assert (EB : vat conV (2 * J + 1) = mkV 0 0 0) by exact (bottom_at prof J HN HJ).
    assert (TT : forall t, mkV 0 hh 0 = turn t (mkV 0 hh 0)) by (intros; symmetry; apply turn_axis; reflexivity).
    assert (V0 : forall v, vsub v (mkV 0 0 0) = v) by (intros [x y z]; unfold vsub; cbn [vx vy vz]; f_equal; lra).
    pose proof sin_d as SD. intros i j k H. rewrite !V0. unfold conT in H. apply in_app_or in H. destruct H as [H|H]; [|apply in_app_or in H; destruct H as [H|H]].
    - unfold sweep_bottom in H. apply in_map_iff in H as (z & E & Hz). apply tri_inj in E as (-> & _ & _). rewrite EB. unfold tet_det, vdot. cbn [vx vy vz]. lra.
    - unfold sweep_middle in H. apply in_flat_map in H as (z & Hz & H). apply in_flat_map in H as (z' & Hn & H). unfold zupto in Hn. apply in_map_iff in Hn as (n & <- & Hn). apply in_seq in Hn.
      change (zupto (2 - 1)) with [0%Z] in Hz. destruct Hz as [<-|[]]. cbv zeta in H.
      replace (Z.of_nat n * 2 + 0)%Z with (Z.of_nat (n * 2 + 0)) in H by lia. replace (Z.of_nat n * 2 + (0 + 1))%Z with (Z.of_nat (n * 2 + 1)) in H by lia.
      change (((Z.of_nat n + 1) mod J) * 2 + 0)%Z with (((Z.of_nat n + 1) mod J) * 2 + Z.of_nat 0)%Z in H. change (((Z.of_nat n + 1) mod J) * 2 + (0 + 1))%Z with (((Z.of_nat n + 1) mod J) * 2 + Z.of_nat 1)%Z in H.
      destruct H as [E|[E|[]]]; apply tri_inj in E as (-> & -> & ->); rewrite ?EN, ?ER by lia; rewrite turn_det; cbn [nth]; unfold tet_det, vdot, vcross, turn, rot, a, b; cbn [vx vy vz]; revert SD; generalize (sin d) (cos d); intros S C SD.
      + assert (P : 0 < ra * ra * (S * hh)) by (apply Rmult_lt_0_compat; apply Rmult_lt_0_compat; auto). lra.
      + assert (P : 0 < ra * rb * (S * hh)) by (apply Rmult_lt_0_compat; apply Rmult_lt_0_compat; auto). lra.
    - unfold sweep_top in H. apply in_map_iff in H as (z & E & Hz). unfold zupto in Hz. apply in_map_iff in Hz as (n & <- & Hn). apply in_seq in Hn. apply tri_inj in E as (-> & -> & ->).
      replace (Z.of_nat n * 2 + (4 - 3))%Z with (Z.of_nat (n * 2 + 1)) by lia. rewrite ER by lia. change (4 - 3)%Z with (Z.of_nat 1). rewrite EN by lia. rewrite ET, (TT (INR n * d)), turn_det.
      cbn [nth]. unfold tet_det, vdot, vcross, turn, rot, a, b. cbn [vx vy vz]. revert SD. generalize (sin d) (cos d). intros S C SD. assert (P : 0 < rb * rb * (S * hh)) by (apply Rmult_lt_0_compat; apply Rmult_lt_0_compat; auto). lra.
  Qed.
  Lemma con_counted : big_conical -> counted_stone conV conT.
  Proof.
    intros (B0 & B1 & B2 & B3). cbv zeta in B2, B3. destruct con_moments as (F0 & F1 & F2 & S0 & S2 & S1). assert (T0 : 0 < tiny) by (unfold tiny; lra).
    destruct (polygon_area_bound J HJ) as [PA _]. set (A := polygon_area J) in *.
    assert (Q : 0 < ra * ra + ra * rb + rb * rb) by nra. assert (PV : 0 < A * hh * (ra * ra + ra * rb + rb * rb) / 3) by lra.
    split; [rewrite con_volume; exact B0|]. rewrite con_volume. fold A. split; [|split].
    - intros i Hi. destruct i as [|[|[|i]]]; try lia; [left; rewrite F0; unfold Rdiv; ring| |left; rewrite F2; unfold Rdiv; ring]. right. rewrite F1.
      replace (A * (hh * hh) * (ra * ra + 2 * (ra * rb) + 3 * (rb * rb)) / 12 / (A * hh * (ra * ra + ra * rb + rb * rb) / 3)) with (hh * (ra * ra + 2 * (ra * rb) + 3 * (rb * rb)) / (4 * (ra * ra + ra * rb + rb * rb))) by (field; repeat split; lra).
      unfold tiny in *. rewrite Rabs_pos_eq; lra.
    - set (across := polygon_inertia J * hh * (ra * ra * (ra * ra) + ra * ra * (ra * rb) + ra * ra * (rb * rb) + ra * rb * (rb * rb) + rb * rb * (rb * rb)) / 5) in *.
      set (axial := A * (hh * hh * hh) * (ra * ra + 3 * (ra * rb) + 6 * (rb * rb)) / 30) in *.
      assert (SQ : (A * (hh * hh) * (ra * ra + 2 * (ra * rb) + 3 * (rb * rb)) / 12) * (A * (hh * hh) * (ra * ra + 2 * (ra * rb) + 3 * (rb * rb)) / 12) / (A * hh * (ra * ra + ra * rb + rb * rb) / 3) < axial).
      { assert (E : axial - (A * (hh * hh) * (ra * ra + 2 * (ra * rb) + 3 * (rb * rb)) / 12) * (A * (hh * hh) * (ra * ra + 2 * (ra * rb) + 3 * (rb * rb)) / 12) / (A * hh * (ra * ra + ra * rb + rb * rb) / 3) =
          A * (hh * hh * hh) * (3 * (ra * ra * (ra * ra)) + 12 * (ra * ra * (ra * rb)) + 30 * (ra * ra * (rb * rb)) + 12 * (ra * rb * (rb * rb)) + 3 * (rb * rb * (rb * rb))) / (240 * (ra * ra + ra * rb + rb * rb))) by (unfold axial; field; repeat split; lra).
        assert (P : 0 < A * (hh * hh * hh) * (3 * (ra * ra * (ra * ra)) + 12 * (ra * ra * (ra * rb)) + 30 * (ra * ra * (rb * rb)) + 12 * (ra * rb * (rb * rb)) + 3 * (rb * rb * (rb * rb))) / (240 * (ra * ra + ra * rb + rb * rb))).
        { assert (P1 : 0 < ra * ra) by nra. assert (P2 : 0 < ra * rb) by nra. assert (P3 : 0 < rb * rb) by nra.
          apply Rdiv_lt_0_compat; [|lra]. apply Rmult_lt_0_compat; [apply Rmult_lt_0_compat; [exact PA|repeat apply Rmult_lt_0_compat; exact Hh]|].
          pose proof (Rmult_lt_0_compat _ _ P1 P1). pose proof (Rmult_lt_0_compat _ _ P1 P2). pose proof (Rmult_lt_0_compat _ _ P1 P3). pose proof (Rmult_lt_0_compat _ _ P2 P3). pose proof (Rmult_lt_0_compat _ _ P3 P3). lra. }
        lra. }
      assert (E0 : forall x y, (0 * 0 + x * y) / (A * hh * (ra * ra + ra * rb + rb * rb) / 3) = x * y / (A * hh * (ra * ra + ra * rb + rb * rb) / 3)) by (intros; f_equal; ring).
      assert (E1 : forall x y, (x * y + 0 * 0) / (A * hh * (ra * ra + ra * rb + rb * rb) / 3) = x * y / (A * hh * (ra * ra + ra * rb + rb * rb) / 3)) by (intros; f_equal; ring).
      assert (E2 : 0 * 0 / (A * hh * (ra * ra + ra * rb + rb * rb) / 3) = 0) by (unfold Rdiv; ring).
      intros i j Hi Hj Hij. destruct i as [|[|[|i]]]; try lia; destruct j as [|[|[|j]]]; try lia; rewrite ?S0, ?S1, ?S2, ?F0, ?F1, ?F2, ?E0, ?E1, ?E2; fold A across axial; split; lra.
    - exists (mkV 0 0 0). split; [|exact con_star]. unfold conV. apply in_or_app. right. right. left. reflexivity.
  Qed.
End conical.
