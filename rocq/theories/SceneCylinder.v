(** The cylinders of the scene builders are meshes from which create_shape makes a shape. *)
From Verif Require ListProofs PolyProofs.
From Verif Require Import Base QuatModel QuatProofs VecModel VecProofs BvhModel BvhSpec BvhProofs GridModel VolModel RigidTypes RigidSpec CollModel BaryModel MassModel MassSpec MassProofs
  StepModel RotProofs QuatMatProofs SurfModel SurfSpec SurfProofs Prop_Geometry Prop_Surface SceneModel SceneSpec SceneMesh SceneProofs SceneShape SceneConical Prop_Scene Prop_SceneLattice Prop_Sweep.
Open Scope R_scope.

Section cylinder.
  Variables (rr hh : R) (J : Z).
  Hypotheses (Ha : 0 < rr) (Hh : 0 < hh) (HJ : (3 <= J)%Z).
  Let a := mkV rr (- hh / 2) 0. Let b := mkV rr (hh / 2) 0. Let d := 2 * PI / IZR J.
  Let prof := [mkV 0 (- hh / 2) 0; a; b; mkV 0 (hh / 2) 0].
  Let ring (j : nat) := [turn (INR j * d) a; turn (INR j * d) b].
  Let rings := flat_map ring (seq 0 (Z.to_nat J)).
  Definition cylV : list vec3 := flat_map (sweep_slice prof d) (zupto J) ++ [mkV 0 (hh / 2) 0; mkV 0 (- hh / 2) 0].
  Definition cylT : list tri := sweep_bottom 2 J (2 * J + 1) ++ sweep_middle 2 J ++ sweep_top 4 2 J (2 * J).
  Lemma cyl_sweep : profile_sweep prof J = Some (cylV, cylT).
  Proof.
    unfold profile_sweep, prof. cbn [length Z.of_nat Pos.of_succ_nat Pos.succ Z.leb Z.compare Pos.compare Pos.compare_cont].
    destruct (Z.leb_spec J 2); [lia|]. unfold cylV, cylT, prof, a, b, d. cbn [last hd]. change (4 - 2)%Z with 2%Z. replace (2 * J + 2 - 1)%Z with (2 * J + 1)%Z by lia. replace (2 * J + 2 - 2)%Z with (2 * J)%Z by lia. reflexivity.
  Qed.
  Lemma cyl_eq : create_cylinder rr hh J 1 = Some (cylV, cylT).
  Proof.
    unfold create_cylinder. change (1 <=? 0)%Z with false. cbn iota. rewrite <- cyl_sweep. f_equal. unfold cylinder_profile, prof, a, b. change (zupto 1) with [0%Z]. cbn [map app].
    repeat (apply f_equal2; [first [reflexivity|apply (f_equal3 mkV); field]|]). reflexivity.
  Qed.
  Lemma cylV_eq : cylV = rings ++ [mkV 0 (hh / 2) 0; mkV 0 (- hh / 2) 0].
  Proof.
    unfold cylV, rings. f_equal. unfold zupto. rewrite flat_map_concat_map, map_map, <- flat_map_concat_map. apply flat_map_ext. intros j. unfold ring, sweep_slice, prof, inner. cbn [tl removelast map].
    rewrite !Ru_turn, <- INR_IZR_INZ. reflexivity.
  Qed.
  Lemma prof_ok : profile_ok prof.
  Proof. unfold profile_ok, prof, a, b. cbn. repeat split. repeat constructor. Qed.
  Lemma Jpos : 3 <= IZR J. Proof. apply (IZR_le 3); lia. Qed.
  Lemma d_bounds : 0 < d < PI.
  Proof.
    pose proof Jpos. pose proof PI_RGT_0. unfold d. split; [apply Rdiv_lt_0_compat; lra|]. apply (Rmult_lt_reg_r (IZR J)); [lra|]. replace (2 * PI / IZR J * IZR J) with (2 * PI) by (field; lra). nra.
  Qed.
  Lemma sin_d : 0 < sin d. Proof. pose proof d_bounds. apply sin_gt_0; lra. Qed.
  Lemma angle_j j : (j < Z.to_nat J)%nat -> 0 <= INR j * d < 2 * PI.
  Proof.
    intros H. pose proof d_bounds as [D _]. pose proof (pos_INR j). split; [nra|]. assert (L : INR j < IZR J) by (rewrite INR_IZR_INZ; apply IZR_lt; lia).
    replace (2 * PI) with (IZR J * d); [nra|]. unfold d. field. pose proof Jpos. lra.
  Qed.
  Lemma cyl_len : length cylV = (2 * Z.to_nat J + 2)%nat.
  Proof. rewrite cylV_eq, app_length. unfold rings. rewrite (flat_map_len _ 2) by reflexivity. rewrite seq_length. cbn. lia. Qed.
  Lemma cyl_ring_inj j k v w : (j < Z.to_nat J)%nat -> (k < Z.to_nat J)%nat -> 0 < vx v -> vz v = 0 -> vx w = vx v -> vz w = 0 -> turn (INR j * d) v = turn (INR k * d) w -> j = k.
  Proof.
    intros Lj Lk P Z E Z' H. unfold turn, rot in H. injection H as H0 _ H2. rewrite Z, Z', E in *. pose proof (angle_j j Lj). pose proof (angle_j k Lk).
    assert (A : INR j * d = INR k * d) by (apply same_angle; auto; nra). apply INR_eq. pose proof d_bounds. nra.
  Qed.
  Lemma cyl_nodup : NoDup cylV.
  Proof.
    rewrite cylV_eq. assert (N : NoDup rings).
    { unfold rings. apply ListProofs.NoDup_flat_map; [apply seq_NoDup| |].
      - intros j _. unfold ring. constructor; [|constructor; [intros []|constructor]]. intros [H|[]]. apply (f_equal vy) in H. cbn in H. lra.
      - intros j k v Hj Hk. apply in_seq in Hj, Hk. intros [<-|[<-|[]]] [H|[H|[]]].
        + apply (cyl_ring_inj j k a a); [lia|lia|exact Ha|reflexivity|reflexivity|reflexivity|symmetry; exact H].
        + exfalso. apply (f_equal vy) in H. cbn in H. lra.
        + exfalso. apply (f_equal vy) in H. cbn in H. lra.
        + apply (cyl_ring_inj j k b b); [lia|lia|exact Ha|reflexivity|reflexivity|reflexivity|symmetry; exact H]. }
    assert (O : forall v, In v rings -> vx v * vx v + vz v * vz v <> 0).
    { intros v Hv. unfold rings in Hv. apply in_flat_map in Hv as (j & _ & Hv). pose proof (sin2_cos2 (INR j * d)) as Q. unfold Rsqr in Q. destruct Hv as [<-|[<-|[]]]; unfold turn, rot, a, b; cbn [vx vy vz]; revert Q; generalize (cos (INR j * d)) (sin (INR j * d)); intros C S Q.
      - replace ((C * rr + S * 0) * (C * rr + S * 0) + (- S * rr + C * 0) * (- S * rr + C * 0)) with (rr * rr * (S * S + C * C)) by ring. rewrite Q. nra.
      - replace ((C * rr + S * 0) * (C * rr + S * 0) + (- S * rr + C * 0) * (- S * rr + C * 0)) with (rr * rr * (S * S + C * C)) by ring. rewrite Q. nra. }
    apply PolyProofs.NoDup_app_intro; auto.
    - constructor; [|constructor; [intros []|constructor]]. intros [H|[]]. apply (f_equal vy) in H. cbn in H. lra.
    - intros v Hv [<-|[<-|[]]]; apply (O _ Hv); cbn; ring.
  Qed.
  (** the triangles are not degenerate *)
  Lemma tri_bottom : vcross (vsub (turn d a) (mkV 0 (- hh / 2) 0)) (vsub a (mkV 0 (- hh / 2) 0)) <> vzero.
  Proof. unfold turn, rot, a, vcross, vsub. intros E. apply (f_equal vy) in E. cbn [vx vy vz vzero] in E. pose proof sin_d as SD. assert (P : 0 < rr * rr * sin d) by (apply Rmult_lt_0_compat; [nra|exact SD]). unfold vzero in E. cbn [vy] in E. lra. Qed.
  Lemma tri_mid1 : vcross (vsub (turn d a) a) (vsub (turn d b) a) <> vzero.
  Proof. unfold turn, rot, a, b, vcross, vsub. intros E. apply (f_equal vx) in E. unfold vzero in E. cbn [vx vy vz] in E. pose proof sin_d as SD. assert (P : 0 < rr * hh * sin d) by (apply Rmult_lt_0_compat; [nra|exact SD]). lra. Qed.
  Lemma tri_mid2 : vcross (vsub (turn d b) a) (vsub b a) <> vzero.
  Proof. unfold turn, rot, a, b, vcross, vsub. intros E. apply (f_equal vx) in E. unfold vzero in E. cbn [vx vy vz] in E. pose proof sin_d as SD. assert (P : 0 < rr * hh * sin d) by (apply Rmult_lt_0_compat; [nra|exact SD]). lra. Qed.
  Lemma tri_top : vcross (vsub b (mkV 0 (hh / 2) 0)) (vsub (turn d b) (mkV 0 (hh / 2) 0)) <> vzero.
  Proof. unfold turn, rot, b, vcross, vsub. intros E. apply (f_equal vy) in E. unfold vzero in E. cbn [vx vy vz] in E. pose proof sin_d as SD. assert (P : 0 < rr * rr * sin d) by (apply Rmult_lt_0_compat; [nra|exact SD]). lra. Qed.
  Lemma cyl_proper : proper_triangles cylV cylT.
  Proof.
    assert (HN : (3 <= length prof)%nat) by (cbn; lia).
    assert (ER : forall j i, (j < Z.to_nat J)%nat -> (i < 2)%nat -> vat cylV (Z.of_nat (j * 2 + i)) = turn (INR j * d) (nth i [a; b] vzero)).
    { intros j i Hj Hi. exact (ring_at prof J j i Hj Hi). }
    assert (EN : forall j i, (j < Z.to_nat J)%nat -> (i < 2)%nat -> vat cylV (((Z.of_nat j + 1) mod J) * 2 + Z.of_nat i)%Z = turn (INR j * d) (turn d (nth i [a; b] vzero))).
    { intros j i Hj Hi. exact (next_at prof J HN HJ j i Hj Hi). }
    assert (ET : vat cylV (2 * J) = mkV 0 (hh / 2) 0) by exact (top_at prof J HN HJ).
    assert (EB : vat cylV (2 * J + 1) = mkV 0 (- hh / 2) 0) by exact (bottom_at prof J HN HJ).
    assert (TT : forall t, mkV 0 (hh / 2) 0 = turn t (mkV 0 (hh / 2) 0)) by (intros; symmetry; apply turn_axis; reflexivity).
    assert (TB : forall t, mkV 0 (- hh / 2) 0 = turn t (mkV 0 (- hh / 2) 0)) by (intros; symmetry; apply turn_axis; reflexivity).
    intros i j k H. unfold cylT in H. apply in_app_or in H. destruct H as [H|H]; [|apply in_app_or in H; destruct H as [H|H]].
    - unfold sweep_bottom in H. apply in_map_iff in H as (z & E & Hz). unfold zupto in Hz. apply in_map_iff in Hz as (n & <- & Hn). apply in_seq in Hn. apply tri_inj in E as (-> & -> & ->).
      replace (2 * ((Z.of_nat n + 1) mod J))%Z with (((Z.of_nat n + 1) mod J) * 2 + Z.of_nat 0)%Z by lia. rewrite EN by lia. replace (2 * Z.of_nat n)%Z with (Z.of_nat (n * 2 + 0)) by lia. rewrite ER by lia. rewrite EB, (TB (INR n * d)). apply turn_flat. exact tri_bottom.
    - unfold sweep_middle in H. apply in_flat_map in H as (z & Hz & H). apply in_flat_map in H as (z' & Hn & H). unfold zupto in Hn. apply in_map_iff in Hn as (n & <- & Hn). apply in_seq in Hn.
      change (zupto (2 - 1)) with [0%Z] in Hz. destruct Hz as [<-|[]]. cbv zeta in H.
      replace (Z.of_nat n * 2 + 0)%Z with (Z.of_nat (n * 2 + 0)) in H by lia. replace (Z.of_nat n * 2 + (0 + 1))%Z with (Z.of_nat (n * 2 + 1)) in H by lia.
      change (((Z.of_nat n + 1) mod J) * 2 + 0)%Z with (((Z.of_nat n + 1) mod J) * 2 + Z.of_nat 0)%Z in H. change (((Z.of_nat n + 1) mod J) * 2 + (0 + 1))%Z with (((Z.of_nat n + 1) mod J) * 2 + Z.of_nat 1)%Z in H.
      destruct H as [E|[E|[]]]; apply tri_inj in E as (-> & -> & ->); rewrite ?EN, ?ER by lia; apply turn_flat; [exact tri_mid1|exact tri_mid2].
    - unfold sweep_top in H. apply in_map_iff in H as (z & E & Hz). unfold zupto in Hz. apply in_map_iff in Hz as (n & <- & Hn). apply in_seq in Hn. apply tri_inj in E as (-> & -> & ->).
      replace (Z.of_nat n * 2 + (4 - 3))%Z with (Z.of_nat (n * 2 + 1)) by lia. rewrite ER by lia. change (4 - 3)%Z with (Z.of_nat 1). rewrite EN by lia. rewrite ET, (TT (INR n * d)). apply turn_flat. exact tri_top.
  Qed.
  Lemma cyl_plain : plain cylV cylT.
  Proof. destruct (C37_swept_shapes J 1 rr hh 0 0 0 0 0 cylV cylT) as (_ & C & _); [left; exact cyl_eq|]. unfold covers_indices in C. intros i j k H.
    assert (E : forall x y, In (x, y) [(i, j); (j, k); (k, i)] -> In (x, y) (directed_edges cylT)) by (intros x y K; unfold directed_edges; apply in_flat_map; exists (i, j, k); split; [exact H|exact K]).
    split; [|split]; apply C.
    - exists i, j. split; [apply E; left; reflexivity|left; reflexivity].
    - exists j, k. split; [apply E; right; left; reflexivity|left; reflexivity].
    - exists k, i. split; [apply E; right; right; left; reflexivity|left; reflexivity]. Qed.
  Lemma cyl_closed : closed_mesh cylT.
  Proof. destruct (C37_swept_shapes J 1 rr hh 0 0 0 0 0 cylV cylT) as (C & _); [left; exact cyl_eq|]. exact C. Qed.
  Lemma cyl_volume : volume cylV cylT = polygon_area J * (rr * rr) * hh.
  Proof. apply (C154_shapes J 1 rr hh 0 0 cylV cylT). exact cyl_eq. Qed.
  (** the covariance of the vertices *)
  Lemma cyl_sum u : rsum u cylV = sumR (seq 0 (Z.to_nat J)) (fun j => u (turn (INR j * d) a) + u (turn (INR j * d) b)) + (u (mkV 0 (hh / 2) 0) + u (mkV 0 (- hh / 2) 0)).
  Proof.
    rewrite cylV_eq. change (rsum u (rings ++ [mkV 0 (hh / 2) 0; mkV 0 (- hh / 2) 0])) with (sumR (rings ++ [mkV 0 (hh / 2) 0; mkV 0 (- hh / 2) 0]) u). rewrite sumR_app. f_equal; [|unfold sumR; cbn; ring_simplify; reflexivity].
    unfold rings. rewrite sumR_flat. apply sumR_ext. intros j _. unfold ring, sumR. cbn [fold_right]. lra.
  Qed.
  Lemma cyl_sum_trig u k1 k2 : (forall j, u (turn (INR j * d) a) + u (turn (INR j * d) b) = cos (INR j * d) * k1 + sin (INR j * d) * k2) -> u (mkV 0 (hh / 2) 0) = 0 -> u (mkV 0 (- hh / 2) 0) = 0 -> rsum u cylV = 0.
  Proof. intros H H1 H2. rewrite cyl_sum, H1, H2. rewrite (sumR_ext _ _ (fun j => cos (INR j * d) * k1 + sin (INR j * d) * k2)) by (intros j _; apply H). unfold d. rewrite (sums_1 J HJ). ring. Qed.
  Lemma cyl_sum_trig2 u k : (forall j, u (turn (INR j * d) a) + u (turn (INR j * d) b) = sin (2 * (INR j * d)) * k) -> u (mkV 0 (hh / 2) 0) = 0 -> u (mkV 0 (- hh / 2) 0) = 0 -> rsum u cylV = 0.
  Proof. intros H H1 H2. rewrite cyl_sum, H1, H2. rewrite (sumR_ext _ _ (fun j => cos (2 * (INR j * d)) * 0 + sin (2 * (INR j * d)) * k)) by (intros j _; rewrite H; ring). unfold d. rewrite (sums_2 J HJ). ring. Qed.
  Lemma cyl_centred : exists m, centred (centred cylV) = map (fun p => vsub p (mkV 0 m 0)) cylV.
  Proof.
    assert (S0 : rsum (fun p => comp p 0) cylV = 0).
    { apply (cyl_sum_trig _ (rr + rr) 0); [|reflexivity|reflexivity]. intros j. unfold turn, rot, a, b. cbn [comp vx vy vz]. lra. }
    assert (S2 : rsum (fun p => comp p 2) cylV = 0).
    { apply (cyl_sum_trig _ 0 (- (rr + rr))); [|reflexivity|reflexivity]. intros j. unfold turn, rot, a, b. cbn [comp vx vy vz]. lra. }
    assert (G : forall P, rsum (fun p => comp p 0) P = 0 -> rsum (fun p => comp p 2) P = 0 -> exists m, centred P = map (fun p => vsub p (mkV 0 m 0)) P).
    { intros P H0 H2. exists (vy (vmean P)). unfold centred. apply map_ext. intros p. f_equal.
      assert (F : forall Q, fold_right vadd vzero Q = mkV (rsum (fun p => comp p 0) Q) (rsum (fun p => comp p 1) Q) (rsum (fun p => comp p 2) Q)).
      { induction Q as [|q Q IH]; [reflexivity|]. cbn [fold_right]. rewrite IH. reflexivity. }
      unfold vmean. rewrite F, H0, H2. unfold vdiv, Rdiv. cbn [vx vy vz]. rewrite Rmult_0_l. reflexivity. }
    destruct (G cylV S0 S2) as (m1 & E1). rewrite E1.
    assert (K : forall i, (i = 0 \/ i = 2)%nat -> rsum (fun p => comp p i) (map (fun p => vsub p (mkV 0 m1 0)) cylV) = rsum (fun p => comp p i) cylV).
    { intros i Hi. unfold rsum. clear - Hi. induction cylV as [|p l IH]; [reflexivity|]. cbn [map fold_right]. rewrite IH. f_equal. destruct Hi as [-> | ->]; unfold vsub; cbn; ring. }
    destruct (G _ (eq_trans (K 0%nat (or_introl eq_refl)) S0) (eq_trans (K 2%nat (or_intror eq_refl)) S2)) as (m2 & E2). exists (m1 + m2). rewrite E2, map_map. apply map_ext. intros p. unfold vsub. cbn [vx vy vz]. f_equal; ring.
  Qed.
  Lemma cyl_cov : exists dd, covariance cylV = mdiag dd.
  Proof.
    destruct cyl_centred as (m & E). unfold covariance. rewrite E. cbv zeta.
    assert (G : forall f, rsum f (map (fun p => vsub p (mkV 0 m 0)) cylV) = rsum (fun p => f (vsub p (mkV 0 m 0))) cylV).
    { intros f. unfold rsum. clear E. induction cylV as [|p l IH]; [reflexivity|]. cbn [map fold_right]. rewrite IH. reflexivity. }
    assert (C01 : rsum (fun p => comp p 0 * comp p 1) (map (fun p => vsub p (mkV 0 m 0)) cylV) = 0).
    { rewrite G. apply (cyl_sum_trig _ (rr * (- hh / 2 - m) + rr * (hh / 2 - m)) 0); [|unfold vsub; cbn; ring|unfold vsub; cbn; ring]. intros j. unfold turn, rot, a, b, vsub. cbn [comp vx vy vz]. ring. }
    assert (C12 : rsum (fun p => comp p 1 * comp p 2) (map (fun p => vsub p (mkV 0 m 0)) cylV) = 0).
    { rewrite G. apply (cyl_sum_trig _ 0 (- (rr * (- hh / 2 - m) + rr * (hh / 2 - m)))); [|unfold vsub; cbn; ring|unfold vsub; cbn; ring]. intros j. unfold turn, rot, a, b, vsub. cbn [comp vx vy vz]. ring. }
    assert (C02 : rsum (fun p => comp p 0 * comp p 2) (map (fun p => vsub p (mkV 0 m 0)) cylV) = 0).
    { rewrite G. apply (cyl_sum_trig2 _ (- (rr * rr + rr * rr) / 2)); [|unfold vsub; cbn; ring|unfold vsub; cbn; ring]. intros j. rewrite sin_2a. unfold turn, rot, a, b, vsub. cbn [comp vx vy vz]. field. }
    assert (SW : forall i j, rsum (fun p => comp p i * comp p j) (map (fun p => vsub p (mkV 0 m 0)) cylV) = rsum (fun p => comp p j * comp p i) (map (fun p => vsub p (mkV 0 m 0)) cylV)).
    { intros i j. unfold rsum. clear. induction (map (fun p => vsub p (mkV 0 m 0)) cylV) as [|p l IH]; [reflexivity|]. cbn [fold_right]. rewrite IH. ring. }
    rewrite (SW 1 0)%nat, (SW 2 0)%nat, (SW 2 1)%nat, C01, C12, C02. unfold Rdiv. rewrite !Rmult_0_l.
    eexists (mkV _ _ _). unfold mdiag. cbn [vx vy vz]. reflexivity.
  Qed.
  Theorem cyl_good : good_stone cylV cylT.
  Proof.
    destruct (C154_sweep prof J cylV cylT cyl_sweep prof_ok) as (_ & F0 & _ & F2 & SO & _).
    split; [exact cyl_plain|]. split; [exact cyl_nodup|]. split; [rewrite cyl_len; lia|]. split; [exact cyl_closed|]. split; [exact cyl_proper|]. split.
    { rewrite cyl_volume. destruct (polygon_area_bound J HJ) as [PA _]. apply Rmult_lt_0_compat; [apply Rmult_lt_0_compat; [exact PA|nra]|exact Hh]. }
    split; [exact cyl_cov|]. intros i j Hi Hj Hij. left. split; [apply SO; auto|]. destruct i as [|[|[|i]]], j as [|[|[|j]]]; try lia; rewrite ?F0, ?F2; ring.
  Qed.
  (** no vertex is above or below the caps *)
  Lemma cyl_between v : In v cylV -> - hh / 2 <= vy v <= hh / 2.
  Proof.
    rewrite cylV_eq. intros H. apply in_app_or in H. destruct H as [H|[<-|[<-|[]]]]; [|cbn; lra|cbn; lra].
    unfold rings in H. apply in_flat_map in H as (j & _ & [<-|[<-|[]]]); unfold turn, rot, a, b; cbn; lra.
  Qed.
  (** the mesh is large enough for its mass, its centre of mass and its moments of inertia to be kept *)
  Definition big_cylinder : Prop :=
    tiny < polygon_area J * (rr * rr) * hh /\
    let across := polygon_inertia J * hh * (rr * rr * (rr * rr)) in let axial := polygon_area J * (rr * rr) * (hh * hh * hh) / 12 in
    tiny < across + axial /\ tiny < across + across.
  Lemma cyl_moments : first_moment cylV cylT 0 = 0 /\ first_moment cylV cylT 1 = 0 /\ first_moment cylV cylT 2 = 0 /\
    second_moment cylV cylT 0 0 = polygon_inertia J * hh * (rr * rr * (rr * rr)) /\ second_moment cylV cylT 2 2 = polygon_inertia J * hh * (rr * rr * (rr * rr)) /\
    second_moment cylV cylT 1 1 = polygon_area J * (rr * rr) * (hh * hh * hh) / 12.
  Proof.
    destruct (C154_sweep prof J cylV cylT cyl_sweep prof_ok) as (_ & F0 & F1 & F2 & _). destruct (C154_inertia prof J cylV cylT cyl_sweep prof_ok) as (S1 & S0 & S2). rewrite F0, F1, F2, S0, S1, S2.
    unfold prof, a, b. cbn [along]. unfold frustum_moment, frustum_axial, frustum_across. cbn [vx vy]. generalize (polygon_area J) (polygon_inertia J). intros A I. repeat split; field.
  Qed.
  Lemma cyl_star : star cylV cylT (mkV 0 (- hh / 2) 0).
  Proof.
    assert (HN : (3 <= length prof)%nat) by (cbn; lia).
    assert (ER : forall j i, (j < Z.to_nat J)%nat -> (i < 2)%nat -> vat cylV (Z.of_nat (j * 2 + i)) = turn (INR j * d) (nth i [a; b] vzero)).
    { intros j i Hj Hi. exact (ring_at prof J j i Hj Hi). }
    assert (EN : forall j i, (j < Z.to_nat J)%nat -> (i < 2)%nat -> vat cylV (((Z.of_nat j + 1) mod J) * 2 + Z.of_nat i)%Z = turn (INR j * d) (turn d (nth i [a; b] vzero))).
    { intros j i Hj Hi. exact (next_at prof J HN HJ j i Hj Hi). }
    assert (ET : vat cylV (2 * J) = mkV 0 (hh / 2) 0) by exact (top_at prof J HN HJ).
    assert (EB : vat cylV (2 * J + 1) = mkV 0 (- hh / 2) 0) by exact (bottom_at prof J HN HJ).
    assert (TT : forall t, mkV 0 (hh / 2) 0 = turn t (mkV 0 (hh / 2) 0)) by (intros; symmetry; apply turn_axis; reflexivity).
    assert (VS : forall t v, vsub (turn t v) (mkV 0 (- hh / 2) 0) = turn t (vsub v (mkV 0 (- hh / 2) 0))) by (intros t v; rewrite turn_vsub, (turn_axis t (mkV 0 (- hh / 2) 0)) by reflexivity; reflexivity).
    pose proof sin_d as SD. intros i j k H. unfold cylT in H. apply in_app_or in H. destruct H as [H|H]; [|apply in_app_or in H; destruct H as [H|H]].
    - unfold sweep_bottom in H. apply in_map_iff in H as (z & E & Hz). apply tri_inj in E as (-> & _ & _). rewrite EB. unfold tet_det, vdot, vsub. cbn [vx vy vz]. lra.
    - unfold sweep_middle in H. apply in_flat_map in H as (z & Hz & H). apply in_flat_map in H as (z' & Hn & H). unfold zupto in Hn. apply in_map_iff in Hn as (n & <- & Hn). apply in_seq in Hn.
      change (zupto (2 - 1)) with [0%Z] in Hz. destruct Hz as [<-|[]]. cbv zeta in H.
      replace (Z.of_nat n * 2 + 0)%Z with (Z.of_nat (n * 2 + 0)) in H by lia. replace (Z.of_nat n * 2 + (0 + 1))%Z with (Z.of_nat (n * 2 + 1)) in H by lia.
      change (((Z.of_nat n + 1) mod J) * 2 + 0)%Z with (((Z.of_nat n + 1) mod J) * 2 + Z.of_nat 0)%Z in H. change (((Z.of_nat n + 1) mod J) * 2 + (0 + 1))%Z with (((Z.of_nat n + 1) mod J) * 2 + Z.of_nat 1)%Z in H.
      destruct H as [E|[E|[]]]; apply tri_inj in E as (-> & -> & ->); rewrite ?EN, ?ER by lia; rewrite !(VS (INR n * d)), turn_det; cbn [nth]; unfold tet_det, vdot, vcross, turn, rot, vsub, a, b; cbn [vx vy vz]; revert SD; generalize (sin d) (cos d); intros S C SD.
      + assert (P : 0 < rr * rr * (S * hh)) by (apply Rmult_lt_0_compat; apply Rmult_lt_0_compat; auto). lra.
      + assert (P : 0 < rr * rr * (S * hh)) by (apply Rmult_lt_0_compat; apply Rmult_lt_0_compat; auto). lra.
    - unfold sweep_top in H. apply in_map_iff in H as (z & E & Hz). unfold zupto in Hz. apply in_map_iff in Hz as (n & <- & Hn). apply in_seq in Hn. apply tri_inj in E as (-> & -> & ->).
      replace (Z.of_nat n * 2 + (4 - 3))%Z with (Z.of_nat (n * 2 + 1)) by lia. rewrite ER by lia. change (4 - 3)%Z with (Z.of_nat 1). rewrite EN by lia. rewrite ET, (TT (INR n * d)), !(VS (INR n * d)), turn_det.
      cbn [nth]. unfold tet_det, vdot, vcross, turn, rot, vsub, a, b. cbn [vx vy vz]. revert SD. generalize (sin d) (cos d). intros S C SD. assert (P : 0 < rr * rr * (S * hh)) by (apply Rmult_lt_0_compat; apply Rmult_lt_0_compat; auto). lra.
  Qed.
  Lemma cyl_counted : big_cylinder -> counted_stone cylV cylT.
  Proof.
    intros (B0 & B1 & B2). cbv zeta in B1, B2. destruct cyl_moments as (F0 & F1 & F2 & S0 & S2 & S1).
    assert (T0 : 0 < tiny) by (unfold tiny; lra). assert (Z0 : (0 * 0 + 0 * 0) / (polygon_area J * (rr * rr) * hh) = 0) by (unfold Rdiv; ring).
    split; [rewrite cyl_volume; exact B0|]. rewrite cyl_volume. split; [|split].
    - intros i Hi. left. destruct i as [|[|[|i]]]; try lia; rewrite ?F0, ?F1, ?F2; unfold Rdiv; ring.
    - intros i j Hi Hj Hij. destruct i as [|[|[|i]]]; try lia; destruct j as [|[|[|j]]]; try lia; rewrite ?S0, ?S1, ?S2, ?F0, ?F1, ?F2, Z0; split; lra.
    - exists (mkV 0 (- hh / 2) 0). split; [|exact cyl_star]. unfold cylV. apply in_or_app. right. right. left. reflexivity.
  Qed.
End cylinder.
