(** Property C154: the solids of revolution of surface_mesh.py (profile_sweep and the shapes made with it) have the volume of a stack
    of frusta of regular polygons, their centre of mass is on the axis, and the axis is a principal axis of inertia. *)
From Coq Require Import Permutation.
From Verif Require Import Base QuatModel QuatProofs VecModel VecProofs BvhModel GridModel VolModel MassModel MassSpec MassProofs SurfModel SurfSpec SurfProofs SceneMesh Prop_Surface Prop_SceneLattice Prop_Scene.
Open Scope R_scope.

(** ** specification *)
(** the sum of g over the neighbouring points of a profile *)
Fixpoint along (g : vec3 -> vec3 -> R) (l : list vec3) : R :=
  match l with a :: (b :: _) as t => g a b + along g t | _ => 0 end.
(** the area of a regular polygon with n corners at distance 1 from its centre *)
Definition polygon_area (n : Z) : R := IZR n / 2 * sin (2 * PI / IZR n).
(** the volume of the frustum between the polygons of radius vx a at height vy a and of radius vx b at height vy b *)
Definition frustum (n : Z) (a b : vec3) : R := polygon_area n * ((vy b - vy a) * (vx a * vx a + vx a * vx b + vx b * vx b) / 3).
(** its first moment in the direction of the axis: the integral of y r(y)^2 times the area of the unit polygon *)
Definition frustum_moment (n : Z) (a b : vec3) : R :=
  polygon_area n * ((vy b - vy a) / 12 * (vy a * (3 * (vx a * vx a) + 2 * (vx a * vx b) + vx b * vx b) + vy b * (vx a * vx a + 2 * (vx a * vx b) + 3 * (vx b * vx b)))).
(** its second moment in the direction of the axis: the integral of y^2 r(y)^2 times the area of the unit polygon *)
Definition frustum_axial (n : Z) (a b : vec3) : R :=
  polygon_area n * ((vy b - vy a) / 30 * (vy a * vy a * (6 * (vx a * vx a) + 3 * (vx a * vx b) + vx b * vx b) + vy a * vy b * (3 * (vx a * vx a) + 4 * (vx a * vx b) + 3 * (vx b * vx b)) +
    vy b * vy b * (vx a * vx a + 3 * (vx a * vx b) + 6 * (vx b * vx b)))).
(** the second moment of the regular polygon in any direction: half of its polar moment *)
Definition polygon_inertia (n : Z) : R := polygon_area n * (2 + cos (2 * PI / IZR n)) / 12.
(** the second moment of the frustum across the axis: the integral of r(y)^4 times that of the unit polygon *)
Definition frustum_across (n : Z) (a b : vec3) : R :=
  polygon_inertia n * ((vy b - vy a) / 5 * (vx a * vx a * (vx a * vx a) + vx a * vx a * (vx a * vx b) + vx a * vx a * (vx b * vx b) + vx a * vx b * (vx b * vx b) + vx b * vx b * (vx b * vx b))).
(** a profile in the half plane z = 0 that starts and ends on the axis *)
Definition profile_ok (l : list vec3) : Prop := Forall (fun v => vz v = 0) l /\ vx (hd vzero l) = 0 /\ vx (last l vzero) = 0.

(** ** sums *)
Definition sumR {A} (l : list A) (g : A -> R) : R := fold_right (fun x s => g x + s) 0 l.
Lemma sumR_app {A} l m (g : A -> R) : sumR (l ++ m) g = sumR l g + sumR m g.
Proof. induction l as [|a l IH]; cbn [app sumR fold_right]; [unfold sumR; cbn; ring|]. fold (sumR (l ++ m) g). rewrite IH. unfold sumR. cbn. ring. Qed.
Lemma sumR_map {A B} (f : A -> B) l (g : B -> R) : sumR (map f l) g = sumR l (fun x => g (f x)).
Proof. induction l as [|a l IH]; [reflexivity|]. cbn [map sumR fold_right]. fold (sumR (map f l) g). rewrite IH. reflexivity. Qed.
Lemma sumR_flat {A B} (f : A -> list B) l (g : B -> R) : sumR (flat_map f l) g = sumR l (fun x => sumR (f x) g).
Proof. induction l as [|a l IH]; [reflexivity|]. cbn [flat_map]. rewrite sumR_app, IH. reflexivity. Qed.
Lemma sumR_ext {A} l (g h : A -> R) : (forall x, In x l -> g x = h x) -> sumR l g = sumR l h.
Proof. induction l as [|a l IH]; intros H; [reflexivity|]. cbn [sumR fold_right]. fold (sumR l g) (sumR l h). rewrite IH by (intros; apply H; right; assumption). rewrite H by (left; reflexivity). reflexivity. Qed.
Lemma sumR_plus {A} l (g h : A -> R) : sumR l (fun x => g x + h x) = sumR l g + sumR l h.
Proof. induction l as [|a l IH]; [unfold sumR; cbn; ring|]. cbn [sumR fold_right]. fold (sumR l g) (sumR l h) (sumR l (fun x => g x + h x)). rewrite IH. ring. Qed.
Lemma sumR_scale {A} l c (g : A -> R) : sumR l (fun x => c * g x) = c * sumR l g.
Proof. induction l as [|a l IH]; [unfold sumR; cbn; ring|]. cbn [sumR fold_right]. fold (sumR l g) (sumR l (fun x => c * g x)). rewrite IH. ring. Qed.
Lemma sumR_const {A} (l : list A) c : sumR l (fun _ => c) = INR (length l) * c.
Proof. induction l as [|a l IH]; [unfold sumR; cbn; ring|]. cbn [sumR fold_right length]. fold (sumR l (fun _ => c)). rewrite IH, S_INR. ring. Qed.
Lemma sumR_swap {A B} (l : list A) (m : list B) g : sumR l (fun x => sumR m (g x)) = sumR m (fun y => sumR l (fun x => g x y)).
Proof.
  induction l as [|a l IH]; cbn [sumR fold_right].
  - symmetry. transitivity (sumR m (fun _ => 0)); [apply sumR_ext; reflexivity|]. rewrite sumR_const. ring.
  - fold (sumR l (fun x => sumR m (g x))). rewrite IH, <- sumR_plus. reflexivity.
Qed.
Lemma sum_trig n t : 2 * sin (t / 2) * sumR (seq 0 n) (fun j => cos (INR j * t)) = sin ((INR n - 1 / 2) * t) + sin (t / 2) /\
  2 * sin (t / 2) * sumR (seq 0 n) (fun j => sin (INR j * t)) = cos (t / 2) - cos ((INR n - 1 / 2) * t).
Proof.
  induction n as [|n [IH1 IH2]].
  - cbn [seq sumR fold_right INR]. replace ((0 - 1 / 2) * t) with (- (t / 2)) by field. rewrite sin_neg, cos_neg. split; ring.
  - rewrite (List.seq_S n 0), !sumR_app, !Rmult_plus_distr_l, IH1, IH2. cbn [sumR fold_right]. rewrite Nat.add_0_l, S_INR, !Rplus_0_r.
    replace ((INR n + 1 - 1 / 2) * t) with (INR n * t + t / 2) by field. replace ((INR n - 1 / 2) * t) with (INR n * t - t / 2) by field.
    rewrite sin_plus, sin_minus, cos_plus, cos_minus. split; ring.
Qed.
(** the corners of a regular polygon add up to zero *)
Lemma polygon_sums n m : (1 <= m)%nat -> (m < n)%nat ->
  sumR (seq 0 n) (fun j => cos (INR j * (INR m * (2 * PI / INR n)))) = 0 /\ sumR (seq 0 n) (fun j => sin (INR j * (INR m * (2 * PI / INR n)))) = 0.
Proof.
  intros H1 H2. set (t := INR m * (2 * PI / INR n)). pose proof (lt_INR m n H2) as L. pose proof (le_INR 1 m H1) as L1. cbn [INR] in L1. pose proof PI_RGT_0 as HP.
  assert (S : 0 < sin (t / 2)).
  { apply sin_gt_0; unfold t.
    - assert (0 < 2 * PI / INR n) by (apply Rdiv_lt_0_compat; lra). assert (0 < INR m * (2 * PI / INR n)) by (apply Rmult_lt_0_compat; lra). lra.
    - apply (Rmult_lt_reg_r (INR n)); [lra|]. replace (INR m * (2 * PI / INR n) / 2 * INR n) with (INR m * PI) by (field; lra). rewrite (Rmult_comm PI). apply Rmult_lt_compat_r; lra. }
  destruct (sum_trig n t) as [A B].
  assert (E : (INR n - 1 / 2) * t = - (t / 2) + 2 * INR m * PI) by (unfold t; field; lra).
  rewrite E, sin_period, cos_period, sin_neg, cos_neg in *. split; nra.
Qed.

(** ** the vertices of a swept mesh *)
(** rotation about the y-axis *)
Definition rot (c s : R) (v : vec3) : vec3 := mkV (c * vx v + s * vz v) (vy v) (- s * vx v + c * vz v).
Definition turn (t : R) : vec3 -> vec3 := rot (cos t) (sin t).
Lemma Ru_turn t v : q_rotate (q_Ru t v3_j) v = turn t v.
Proof.
  replace (q_Ru t v3_j) with (q_Ry t).
  - rewrite Ry_rotate. unfold turn, rot. f_equal; ring.
  - unfold q_Ru, q_Ry, v3_j, vnorm, vdiv, vdot. cbn [vx vy vz]. replace (0 * 0 + 1 * 1 + 0 * 0) with 1 by ring. rewrite sqrt_1. f_equal; field.
Qed.
Lemma turn_add s t v : turn s (turn t v) = turn (s + t) v.
Proof. unfold turn, rot. cbn [vx vy vz]. rewrite cos_plus, sin_plus. f_equal; ring. Qed.
Lemma turn_axis t v : vx v = 0 -> vz v = 0 -> turn t v = v.
Proof. destruct v as [a b c]. cbn. intros -> ->. unfold turn, rot. cbn. f_equal; ring. Qed.
Lemma turn_0 v : turn 0 v = v.
Proof. destruct v as [a b c]. unfold turn, rot. cbn [vx vy vz]. rewrite cos_0, sin_0. f_equal; ring. Qed.
Lemma turn_2PI v : turn (2 * PI) v = v.
Proof. destruct v as [a b c]. unfold turn, rot. cbn [vx vy vz]. rewrite cos_2PI, sin_2PI. f_equal; ring. Qed.

Section sweep.
  Variables (profile : list vec3) (J : Z).
  Hypothesis HP : profile_ok profile.
  Hypothesis HN : (3 <= length profile)%nat.
  Hypothesis HJ : (3 <= J)%Z.
  Let d : R := 2 * PI / IZR J.
  Let q : list vec3 := inner profile.
  Let h : nat := (length profile - 2)%nat.
  Let V : list vec3 := flat_map (sweep_slice profile d) (zupto J) ++ [last profile vzero; hd vzero profile].
  Lemma q_len : length q = h.
  Proof. unfold q, h. apply inner_len. Qed.
  Lemma zupto_nat n : zupto (Z.of_nat n) = map Z.of_nat (seq 0 n).
  Proof. unfold zupto. rewrite Nat2Z.id. reflexivity. Qed.
  Lemma ring_at j i : (j < Z.to_nat J)%nat -> (i < h)%nat -> vat V (Z.of_nat (j * h + i)) = turn (INR j * d) (nth i q vzero).
  Proof.
    intros Hj Hi. unfold vat. rewrite BvhProofs.py_get_nat. unfold V.
    assert (E : nth_error (flat_map (sweep_slice profile d) (zupto J)) (j * h + i) = Some (turn (INR j * d) (nth i q vzero))).
    { rewrite (nth_flat_map (sweep_slice profile d) h (zupto J) j i (Z.of_nat j)).
      - unfold sweep_slice. rewrite nth_error_map. fold q. rewrite (nth_error_nth' q vzero) by (rewrite q_len; assumption). cbn [option_map]. rewrite Ru_turn, INR_IZR_INZ. reflexivity.
      - intros a _. unfold sweep_slice. rewrite map_length. exact q_len.
      - unfold zupto. rewrite nth_error_map, (seq_nth_error (Z.to_nat J) j) by assumption. reflexivity.
      - assumption. }
    rewrite nth_error_app1; [rewrite E; reflexivity|]. apply nth_error_Some. congruence.
  Qed.
  Lemma len_ring : length (flat_map (sweep_slice profile d) (zupto J)) = (Z.to_nat J * h)%nat.
  Proof. apply Nat2Z.inj. rewrite sweep_V_len by lia. unfold h. lia. Qed.
  Lemma top_at : vat V (Z.of_nat h * J) = last profile vzero.
  Proof.
    replace (Z.of_nat h * J)%Z with (Z.of_nat (Z.to_nat J * h)) by lia. unfold vat. rewrite BvhProofs.py_get_nat. unfold V.
    rewrite nth_error_app2 by (rewrite len_ring; lia). rewrite len_ring, Nat.sub_diag. reflexivity.
  Qed.
  Lemma bottom_at : vat V (Z.of_nat h * J + 1) = hd vzero profile.
  Proof.
    replace (Z.of_nat h * J + 1)%Z with (Z.of_nat (Z.to_nat J * h + 1)) by lia. unfold vat. rewrite BvhProofs.py_get_nat. unfold V.
    rewrite nth_error_app2 by (rewrite len_ring; lia). rewrite len_ring. replace (Z.to_nat J * h + 1 - Z.to_nat J * h)%nat with 1%nat by lia. reflexivity.
  Qed.
  (** the slice after the last one is the first one *)
  Lemma next_at j i : (j < Z.to_nat J)%nat -> (i < h)%nat -> vat V (((Z.of_nat j + 1) mod J) * Z.of_nat h + Z.of_nat i)%Z = turn (INR j * d) (turn d (nth i q vzero)).
  Proof.
    intros Hj Hi. rewrite turn_add. destruct (Nat.eq_dec (S j) (Z.to_nat J)) as [E|E].
    - replace (Z.of_nat j + 1)%Z with J by lia. rewrite Z_mod_same_full. replace (0 * Z.of_nat h + Z.of_nat i)%Z with (Z.of_nat (0 * h + i)) by lia.
      rewrite ring_at by lia. cbn [INR]. rewrite Rmult_0_l, turn_0. replace (INR j * d + d) with (2 * PI); [rewrite turn_2PI; reflexivity|].
      assert (EJ : IZR J = INR j + 1) by (rewrite <- S_INR, E, INR_IZR_INZ, Z2Nat.id by lia; reflexivity). unfold d. rewrite EJ. field. rewrite <- S_INR. apply not_0_INR. lia.
    - rewrite Z.mod_small by lia. replace ((Z.of_nat j + 1) * Z.of_nat h + Z.of_nat i)%Z with (Z.of_nat (S j * h + i)) by lia.
      rewrite ring_at by lia. f_equal. rewrite S_INR. ring.
  Qed.

  Variable f : vec3 -> vec3 -> vec3 -> R.
  Hypothesis f_cycle : forall a b c, f a b c = f b c a.
  Hypothesis f_flat : forall a b, f a b b = 0.
  Lemma f_flat2 a b : f a a b = 0.
  Proof. rewrite <- f_cycle. rewrite <- f_cycle. rewrite <- (f_flat b a). rewrite f_cycle, f_cycle. reflexivity. Qed.
  (** the two triangles of slice j between the profile points a and b *)
  Definition band (j : nat) (a b : vec3) : R :=
    let t := INR j * d in f (turn t a) (turn t (turn d a)) (turn t (turn d b)) + f (turn t a) (turn t (turn d b)) (turn t b).
  Lemma along_split g a l b : l <> [] -> along g (a :: l ++ [b]) = g a (nth 0 l vzero) + along g l + g (nth (length l - 1) l vzero) b.
  Proof.
    intros Hl. assert (G : forall x l, along g ((x :: l) ++ [b]) = along g (x :: l) + g (nth (length l) (x :: l) vzero) b).
    { clear. intros x l. revert x. induction l as [|y l IH]; intros x; [cbn; ring|].
      change (along g ((x :: y :: l) ++ [b])) with (g x y + along g ((y :: l) ++ [b])). rewrite IH. change (along g (x :: y :: l)) with (g x y + along g (y :: l)). cbn [length nth]. ring. }
    destruct l as [|x l]; [congruence|]. change (along g (a :: (x :: l) ++ [b])) with (g a x + along g ((x :: l) ++ [b])). rewrite G. cbn [length nth]. rewrite Nat.sub_succ, Nat.sub_0_r. ring.
  Qed.
  Lemma along_seq g l : along g l = sumR (seq 0 (length l - 1)) (fun i => g (nth i l vzero) (nth (S i) l vzero)).
  Proof.
    induction l as [|x l IH]; [reflexivity|]. destruct l as [|y l]; [reflexivity|]. change (along g (x :: y :: l)) with (g x y + along g (y :: l)). rewrite IH.
    replace (length (x :: y :: l) - 1)%nat with (S (length (y :: l) - 1)) by (cbn [length]; lia). cbn [seq]. rewrite <- seq_shift. cbn [sumR fold_right]. fold (sumR (map S (seq 0 (length (y :: l) - 1))) (fun i => g (nth i (x :: y :: l) vzero) (nth (S i) (x :: y :: l) vzero))).
    rewrite sumR_map. reflexivity.
  Qed.
  Lemma profile_split : profile = hd vzero profile :: q ++ [last profile vzero].
  Proof.
    unfold q, inner. destruct profile as [|a l]; [cbn in HN; lia|]. cbn [hd tl]. apply f_equal. destruct l as [|b l]; [cbn in HN; lia|].
    replace (last (a :: b :: l) vzero) with (last (b :: l) vzero) by reflexivity. apply app_removelast_last. discriminate.
  Qed.
  Lemma mesh_sumR W T : mesh_sum f W T = sumR T (fun t => let '(i, j, k) := t in f (vat W i) (vat W j) (vat W k)).
  Proof. unfold mesh_sum, sumR. induction T as [|[[i j] k] T IH]; [reflexivity|]. cbn [fold_right]. rewrite IH. reflexivity. Qed.
  Lemma axis_ends t : turn t (hd vzero profile) = hd vzero profile /\ turn t (last profile vzero) = last profile vzero.
  Proof.
    destruct HP as (F & H0 & H1). rewrite Forall_forall in F. pose proof profile_split as E.
    assert (I0 : In (hd vzero profile) profile) by (rewrite E at 2; left; reflexivity).
    assert (I1 : In (last profile vzero) profile) by (rewrite E at 2; right; apply in_or_app; right; left; reflexivity).
    split; apply turn_axis; auto.
  Qed.
  Lemma slices_sum : mesh_sum f V (sweep_bottom (Z.of_nat h) J (Z.of_nat h * J + 1) ++ sweep_middle (Z.of_nat h) J ++ sweep_top (Z.of_nat (length profile)) (Z.of_nat h) J (Z.of_nat h * J)) =
    sumR (seq 0 (Z.to_nat J)) (fun j => along (band j) profile).
  Proof.
    assert (Hh : (1 <= h)%nat) by (unfold h; lia). rewrite mesh_sumR, !sumR_app.
    assert (EJ : zupto J = map Z.of_nat (seq 0 (Z.to_nat J))) by reflexivity.
    assert (E1 : sumR (sweep_bottom (Z.of_nat h) J (Z.of_nat h * J + 1)) (fun t => let '(i, j, k) := t in f (vat V i) (vat V j) (vat V k)) =
      sumR (seq 0 (Z.to_nat J)) (fun j => band j (hd vzero profile) (nth 0 q vzero))).
    { unfold sweep_bottom. rewrite sumR_map, EJ, sumR_map. apply sumR_ext. intros j Hj. apply in_seq in Hj. rewrite bottom_at.
      replace (Z.of_nat h * ((Z.of_nat j + 1) mod J))%Z with (((Z.of_nat j + 1) mod J) * Z.of_nat h + Z.of_nat 0)%Z by lia. rewrite next_at by lia.
      replace (Z.of_nat h * Z.of_nat j)%Z with (Z.of_nat (j * h + 0)) by lia. rewrite ring_at by lia. unfold band. destruct (axis_ends (INR j * d)) as [-> _]. destruct (axis_ends d) as [-> _]. destruct (axis_ends (INR j * d)) as [-> _]. rewrite f_flat2. ring. }
    assert (E3 : sumR (sweep_top (Z.of_nat (length profile)) (Z.of_nat h) J (Z.of_nat h * J)) (fun t => let '(i, j, k) := t in f (vat V i) (vat V j) (vat V k)) =
      sumR (seq 0 (Z.to_nat J)) (fun j => band j (nth (length q - 1) q vzero) (last profile vzero))).
    { unfold sweep_top. rewrite sumR_map, EJ, sumR_map. apply sumR_ext. intros j Hj. apply in_seq in Hj. rewrite top_at.
      replace (Z.of_nat (length profile) - 3)%Z with (Z.of_nat (h - 1)) by (unfold h; lia).
      rewrite next_at by lia. replace (Z.of_nat j * Z.of_nat h + Z.of_nat (h - 1))%Z with (Z.of_nat (j * h + (h - 1))) by lia. rewrite ring_at by lia. rewrite q_len.
      unfold band. destruct (axis_ends d) as [_ ->]. destruct (axis_ends (INR j * d)) as [_ ->]. rewrite f_flat, f_cycle. ring. }
    assert (E2 : sumR (sweep_middle (Z.of_nat h) J) (fun t => let '(i, j, k) := t in f (vat V i) (vat V j) (vat V k)) =
      sumR (seq 0 (Z.to_nat J)) (fun j => along (band j) q)).
    { unfold sweep_middle. replace (Z.of_nat h - 1)%Z with (Z.of_nat (h - 1)) by lia. rewrite zupto_nat, EJ, sumR_flat, sumR_map.
      transitivity (sumR (seq 0 (h - 1)) (fun i => sumR (seq 0 (Z.to_nat J)) (fun j => band j (nth i q vzero) (nth (S i) q vzero)))).
      - apply sumR_ext. intros i Hi. apply in_seq in Hi. rewrite sumR_flat, sumR_map. apply sumR_ext. intros j Hj. apply in_seq in Hj. cbn [sumR fold_right].
        replace (Z.of_nat i + 1)%Z with (Z.of_nat (S i)) by lia. rewrite !next_at by lia.
        replace (Z.of_nat j * Z.of_nat h + Z.of_nat i)%Z with (Z.of_nat (j * h + i)) by lia. replace (Z.of_nat j * Z.of_nat h + Z.of_nat (S i))%Z with (Z.of_nat (j * h + S i)) by lia.
        rewrite !ring_at by lia. unfold band. ring.
      - rewrite sumR_swap. apply sumR_ext. intros j _. rewrite along_seq, q_len. reflexivity. }
    rewrite E1, E2, E3, <- !sumR_plus. apply sumR_ext. intros j _. transitivity (along (band j) (hd vzero profile :: q ++ [last profile vzero])); [|rewrite <- profile_split; reflexivity].
    rewrite along_split; [ring|]. intros Z. pose proof q_len as L. rewrite Z in L. cbn in L. lia.
  Qed.
End sweep.

(** ** turning a tetrahedron *)
Lemma turn_det t a b c : tet_det (turn t a) (turn t b) (turn t c) = tet_det a b c.
Proof.
  unfold turn. pose proof (sin2_cos2 t) as H. unfold Rsqr in H. revert H. generalize (cos t) (sin t). intros C S H.
  transitivity ((S * S + C * C) * tet_det a b c); [|rewrite H; ring]. destruct a as [a0 a1 a2], b as [b0 b1 b2], c as [c0 c1 c2]. unfold rot, tet_det, vdot, vcross. cbn [vx vy vz]. ring.
Qed.
Lemma det_cycle a b c : tet_det a b c = tet_det b c a.
Proof. destruct a as [a0 a1 a2], b as [b0 b1 b2], c as [c0 c1 c2]. unfold tet_det, vdot, vcross. cbn [vx vy vz]. ring. Qed.
Lemma det_flat a b : tet_det a b b = 0.
Proof. destruct a as [a0 a1 a2], b as [b0 b1 b2]. unfold tet_det, vdot, vcross. cbn [vx vy vz]. ring. Qed.
Lemma volume_cycle a b c : MassSpec.tet_volume a b c = MassSpec.tet_volume b c a.
Proof. unfold MassSpec.tet_volume. rewrite det_cycle. reflexivity. Qed.
Lemma first_cycle i a b c : tet_first i a b c = tet_first i b c a.
Proof. unfold tet_first. rewrite det_cycle. ring. Qed.
Lemma second_cycle i j a b c : tet_second i j a b c = tet_second i j b c a.
Proof. unfold tet_second. rewrite det_cycle. ring. Qed.
Lemma volume_flat a b : MassSpec.tet_volume a b b = 0.
Proof. unfold MassSpec.tet_volume. rewrite det_flat. field. Qed.
Lemma first_flat i a b : tet_first i a b b = 0.
Proof. unfold tet_first. rewrite det_flat. field. Qed.
Lemma second_flat i j a b : tet_second i j a b b = 0.
Proof. unfold tet_second. rewrite det_flat. field. Qed.

(** ** sums along a profile *)
Lemma along_ext g k l : (forall a b, g a b = k a b) -> along g l = along k l.
Proof. intros H. induction l as [|a [|b l] IH]; [reflexivity|reflexivity|]. change (g a b + along g (b :: l) = k a b + along k (b :: l)). rewrite H, IH. reflexivity. Qed.
Lemma along_lin u v g k l : along (fun a b => u * g a b + v * k a b) l = u * along g l + v * along k l.
Proof.
  induction l as [|a [|b l] IH]; [cbn; ring|cbn; ring|]. change (u * g a b + v * k a b + along (fun a b => u * g a b + v * k a b) (b :: l) = u * (g a b + along g (b :: l)) + v * (k a b + along k (b :: l))). rewrite IH. ring.
Qed.
Lemma along_tele (P : vec3 -> Prop) g k m l : Forall P l -> (forall a b, P a -> P b -> g a b = k a b + m a - m b) -> l <> [] -> along g l = along k l + m (hd vzero l) - m (last l vzero).
Proof.
  intros F H. induction l as [|a [|b l] IH]; intros N; [congruence|cbn; ring|]. inversion F as [|x y Pa F']; subst. inversion F' as [|x y Pb _]; subst.
  change (along g (a :: b :: l)) with (g a b + along g (b :: l)). change (along k (a :: b :: l)) with (k a b + along k (b :: l)). rewrite IH by (assumption || discriminate). rewrite H by assumption.
  change (last (a :: b :: l) vzero) with (last (b :: l) vzero). cbn [hd]. ring.
Qed.
Lemma along_scale u g l : along (fun a b => u * g a b) l = u * along g l.
Proof. transitivity (along (fun a b => u * g a b + 0 * g a b) l); [apply along_ext; intros; ring|]. rewrite along_lin. ring. Qed.

(** ** C154 *)
Definition band0 (d : R) (f : vec3 -> vec3 -> vec3 -> R) (a b : vec3) : R := f a (turn d a) (turn d b) + f a (turn d b) b.
Lemma sweep_sum f profile J V T : (forall a b c, f a b c = f b c a) -> (forall a b, f a b b = 0) -> profile_sweep profile J = Some (V, T) -> profile_ok profile ->
  mesh_sum f V T = sumR (seq 0 (Z.to_nat J)) (fun j => along (band J f j) profile).
Proof.
  intros FC FF H HP. unfold profile_sweep in H. destruct (Z.leb_spec (Z.of_nat (length profile)) 2) as [|L1]; [discriminate|]. destruct (Z.leb_spec J 2) as [|L2]; [discriminate|].
  assert (PI1 : forall (a b : list vec3 * list tri), Some a = Some b -> a = b) by congruence. apply PI1 in H. clear PI1. symmetry in H. apply (f_equal fst) in H as E1. apply (f_equal snd) in H as E2. cbn [fst snd] in E1, E2. subst V T.
  replace (Z.of_nat (length profile) - 2)%Z with (Z.of_nat (length profile - 2)) by lia.
  replace (Z.of_nat (length profile - 2) * J + 2 - 1)%Z with (Z.of_nat (length profile - 2) * J + 1)%Z by lia. replace (Z.of_nat (length profile - 2) * J + 2 - 2)%Z with (Z.of_nat (length profile - 2) * J)%Z by lia.
  apply slices_sum; [assumption|lia|lia|assumption|assumption].
Qed.
Lemma comp_turn t v : comp (turn t v) 0 = cos t * comp v 0 + sin t * comp v 2 /\ comp (turn t v) 1 = comp v 1 /\ comp (turn t v) 2 = - sin t * comp v 0 + cos t * comp v 2.
Proof. repeat split. Qed.
Lemma first_turn t a b c : tet_first 0 (turn t a) (turn t b) (turn t c) = cos t * tet_first 0 a b c + sin t * tet_first 2 a b c /\
  tet_first 1 (turn t a) (turn t b) (turn t c) = tet_first 1 a b c /\
  tet_first 2 (turn t a) (turn t b) (turn t c) = - sin t * tet_first 0 a b c + cos t * tet_first 2 a b c.
Proof.
  destruct (comp_turn t a) as (A0 & A1 & A2), (comp_turn t b) as (B0 & B1 & B2), (comp_turn t c) as (C0 & C1 & C2).
  unfold tet_first. rewrite turn_det, A0, A1, A2, B0, B1, B2, C0, C1, C2. split; [|split]; field.
Qed.
Lemma second_turn t a b c :
  tet_second 0 1 (turn t a) (turn t b) (turn t c) = cos t * tet_second 0 1 a b c + sin t * tet_second 2 1 a b c /\
  tet_second 2 1 (turn t a) (turn t b) (turn t c) = - sin t * tet_second 0 1 a b c + cos t * tet_second 2 1 a b c /\
  tet_second 0 2 (turn t a) (turn t b) (turn t c) = cos (2 * t) * tet_second 0 2 a b c + sin (2 * t) * ((tet_second 2 2 a b c - tet_second 0 0 a b c) / 2) /\
  tet_second 0 0 (turn t a) (turn t b) (turn t c) = 1 * ((tet_second 0 0 a b c + tet_second 2 2 a b c) / 2) + (cos (2 * t) * ((tet_second 0 0 a b c - tet_second 2 2 a b c) / 2) + sin (2 * t) * tet_second 0 2 a b c) /\
  tet_second 2 2 (turn t a) (turn t b) (turn t c) = 1 * ((tet_second 0 0 a b c + tet_second 2 2 a b c) / 2) - (cos (2 * t) * ((tet_second 0 0 a b c - tet_second 2 2 a b c) / 2) + sin (2 * t) * tet_second 0 2 a b c).
Proof.
  destruct (comp_turn t a) as (A0 & A1 & A2), (comp_turn t b) as (B0 & B1 & B2), (comp_turn t c) as (C0 & C1 & C2).
  unfold tet_second. rewrite turn_det, A0, A1, A2, B0, B1, B2, C0, C1, C2. clear. pose proof (sin2_cos2 t) as H. unfold Rsqr in H. rewrite cos_2a, sin_2a. revert H. generalize (cos t) (sin t). intros C S H.
  generalize (tet_det a b c) (comp a 0) (comp a 1) (comp a 2) (comp b 0) (comp b 1) (comp b 2) (comp c 0) (comp c 1) (comp c 2). intros D a0 a1 a2 b0 b1 b2 c0 c1 c2.
  split; [field|]. split; [field|]. split; [field|].
  split; match goal with |- ?l = 1 * ?x + ?y => replace (1 * x) with ((S * S + C * C) * x) by (rewrite H; reflexivity); field | |- ?l = 1 * ?x - ?y => replace (1 * x) with ((S * S + C * C) * x) by (rewrite H; reflexivity); field end.
Qed.
Section moments.
  Variables (profile : list vec3) (J : Z).
  Hypothesis HJ : (3 <= J)%Z.
  Let d : R := 2 * PI / IZR J.
  Lemma INR_J : INR (Z.to_nat J) = IZR J.
  Proof. rewrite INR_IZR_INZ, Z2Nat.id by lia. reflexivity. Qed.
  Lemma sums_1 u v : sumR (seq 0 (Z.to_nat J)) (fun j => cos (INR j * d) * u + sin (INR j * d) * v) = 0.
  Proof.
    destruct (polygon_sums (Z.to_nat J) 1 ltac:(lia) ltac:(lia)) as [A B]. rewrite INR_J in A, B. fold d in A, B. cbn [INR] in A, B. 
    rewrite (sumR_ext _ _ (fun j => u * cos (INR j * (1 * d)) + v * sin (INR j * (1 * d)))) by (intros; rewrite Rmult_1_l; ring). rewrite sumR_plus, !sumR_scale, A, B. ring.
  Qed.
  Lemma sums_2 u v : sumR (seq 0 (Z.to_nat J)) (fun j => cos (2 * (INR j * d)) * u + sin (2 * (INR j * d)) * v) = 0.
  Proof.
    destruct (polygon_sums (Z.to_nat J) 2 ltac:(lia) ltac:(lia)) as [A B]. rewrite INR_J in A, B. fold d in A, B. cbn [INR] in A, B. 
    rewrite (sumR_ext _ _ (fun j => u * cos (INR j * ((1 + 1) * d)) + v * sin (INR j * ((1 + 1) * d)))) by (intros j _; replace (2 * (INR j * d)) with (INR j * ((1 + 1) * d)) by ring; ring). rewrite sumR_plus, !sumR_scale, A, B. ring.
  Qed.
  Lemma band_same f j a b : (forall t a b c, f (turn t a) (turn t b) (turn t c) = f a b c) -> band J f j a b = band0 d f a b.
  Proof. intros H. unfold band. cbv zeta. rewrite !H. reflexivity. Qed.
  Lemma sum_same f : (forall t a b c, f (turn t a) (turn t b) (turn t c) = f a b c) -> sumR (seq 0 (Z.to_nat J)) (fun j => along (band J f j) profile) = IZR J * along (band0 d f) profile.
  Proof.
    intros H. rewrite (sumR_ext _ _ (fun _ => along (band0 d f) profile)) by (intros j _; apply along_ext; intros; apply band_same; exact H). rewrite sumR_const, seq_length, INR_J. reflexivity.
  Qed.
  Lemma sum_1 f g k : (forall t a b c, f (turn t a) (turn t b) (turn t c) = cos t * g a b c + sin t * k a b c) ->
    sumR (seq 0 (Z.to_nat J)) (fun j => along (band J f j) profile) = 0.
  Proof.
    intros H. rewrite <- (sums_1 (along (band0 d g) profile) (along (band0 d k) profile)). apply sumR_ext. intros j _. rewrite <- along_lin. apply along_ext. intros a b. unfold band, band0. cbv zeta. rewrite !H. fold d. ring.
  Qed.
  Lemma sum_2 f g k : (forall t a b c, f (turn t a) (turn t b) (turn t c) = cos (2 * t) * g a b c + sin (2 * t) * k a b c) ->
    sumR (seq 0 (Z.to_nat J)) (fun j => along (band J f j) profile) = 0.
  Proof.
    intros H. rewrite <- (sums_2 (along (band0 d g) profile) (along (band0 d k) profile)). apply sumR_ext. intros j _. rewrite <- along_lin. apply along_ext. intros a b. unfold band, band0. cbv zeta. rewrite !H. fold d. ring.
  Qed.
End moments.
Lemma hd_in {A} (l : list A) x : l <> [] -> In (hd x l) l.
Proof. destruct l; [congruence|left; reflexivity]. Qed.
Lemma last_in {A} (l : list A) x : l <> [] -> In (last l x) l.
Proof. induction l as [|a l IH]; [congruence|]. intros _. destruct l as [|b l]; [left; reflexivity|]. right. apply IH. discriminate. Qed.
Lemma band_volume d a b : vz a = 0 -> vz b = 0 ->
  band0 d MassSpec.tet_volume a b = sin d / 6 * ((vy b - vy a) * (vx a * vx a + vx a * vx b + vx b * vx b)) + sin d / 6 * (vx a * vx a * vy a) - sin d / 6 * (vx b * vx b * vy b).
Proof.
  destruct a as [x0 y0 z0], b as [x1 y1 z1]. cbn [vx vy vz]. intros -> ->. unfold band0, MassSpec.tet_volume, tet_det, vdot, vcross, turn, rot. cbn [vx vy vz]. generalize (cos d) (sin d). intros C S. field.
Qed.
Lemma band_first d a b : vz a = 0 -> vz b = 0 ->
  band0 d (tet_first 1) a b = sin d / 24 * ((vy b - vy a) * (vy a * (3 * (vx a * vx a) + 2 * (vx a * vx b) + vx b * vx b) + vy b * (vx a * vx a + 2 * (vx a * vx b) + 3 * (vx b * vx b)))) +
    sin d / 8 * (vx a * vx a * (vy a * vy a)) - sin d / 8 * (vx b * vx b * (vy b * vy b)).
Proof.
  destruct a as [x0 y0 z0], b as [x1 y1 z1]. cbn [vx vy vz]. intros -> ->. unfold band0, tet_first, tet_det, vdot, vcross, turn, rot. cbn [vx vy vz comp]. generalize (cos d) (sin d). intros C S. field.
Qed.
(** The mesh of a solid of revolution: its volume is that of the stack of frusta of polygons between the neighbouring points of the
    profile, its centre of mass is on the axis at the height of the centre of that stack, and its inertia tensor is diagonal with the
    same moments about all axes perpendicular to the axis of revolution. *)
Theorem C154_sweep profile slices V T : profile_sweep profile slices = Some (V, T) -> profile_ok profile ->
  volume V T = along (frustum slices) profile /\
  first_moment V T 0 = 0 /\ first_moment V T 1 = along (frustum_moment slices) profile /\ first_moment V T 2 = 0 /\
  (forall i j, (i < 3)%nat -> (j < 3)%nat -> i <> j -> second_moment V T i j = 0) /\
  second_moment V T 0 0 = second_moment V T 2 2.
Proof.
  intros H HP. assert (HJ : (3 <= slices)%Z). { unfold profile_sweep in H. destruct (Z.of_nat (length profile) <=? 2)%Z; [discriminate|]. destruct (Z.leb_spec slices 2); [discriminate|lia]. }
  assert (NE : profile <> []) by (intros ->; discriminate). destruct HP as (F & H0 & H1) eqn:EHP. clear EHP.
  assert (JP : 3 <= IZR slices) by (apply (IZR_le 3); lia).
  assert (G : forall f, (forall a b c, f a b c = f b c a) -> (forall a b, f a b b = 0) -> mesh_sum f V T = sumR (seq 0 (Z.to_nat slices)) (fun j => along (band slices f j) profile)) by (intros f FC FF; exact (sweep_sum f profile slices V T FC FF H HP)).
  assert (SYM : forall i j, second_moment V T i j = second_moment V T j i).
  { intros i j. unfold second_moment. apply mesh_sum_ext. intros a b c. unfold tet_second. ring. }
  assert (M01 : second_moment V T 0 1 = 0).
  { unfold second_moment. rewrite G; [|apply second_cycle|apply second_flat]. apply (sum_1 profile slices HJ _ (tet_second 0 1) (tet_second 2 1)). intros t a b c. apply second_turn. }
  assert (M21 : second_moment V T 2 1 = 0).
  { unfold second_moment. rewrite G; [|apply second_cycle|apply second_flat]. apply (sum_1 profile slices HJ _ (tet_second 2 1) (fun a b c => - tet_second 0 1 a b c)). intros t a b c. destruct (second_turn t a b c) as (_ & -> & _). ring. }
  assert (M02 : second_moment V T 0 2 = 0).
  { unfold second_moment. rewrite G; [|apply second_cycle|apply second_flat]. apply (sum_2 profile slices HJ _ (tet_second 0 2) (fun a b c => (tet_second 2 2 a b c - tet_second 0 0 a b c) / 2)). intros t a b c. apply second_turn. }
  split; [|split; [|split; [|split; [|split]]]].
  - unfold volume. rewrite G; [|apply volume_cycle|apply volume_flat]. rewrite sum_same by (assumption || (intros; unfold MassSpec.tet_volume; rewrite turn_det; reflexivity)).
    rewrite (along_tele (fun v => vz v = 0) (band0 (2 * PI / IZR slices) MassSpec.tet_volume) _ (fun v => sin (2 * PI / IZR slices) / 6 * (vx v * vx v * vy v)) profile F (fun a b Ha Hb => band_volume _ a b Ha Hb) NE).
    cbv beta. rewrite H0, H1. rewrite !along_scale. unfold frustum. rewrite along_scale. unfold polygon_area.
    rewrite (along_ext (fun a b => (vy b - vy a) * (vx a * vx a + vx a * vx b + vx b * vx b) / 3) (fun a b => / 3 * ((vy b - vy a) * (vx a * vx a + vx a * vx b + vx b * vx b)))) by (intros; field). rewrite along_scale. field.
  - unfold first_moment. rewrite G; [|apply first_cycle|apply first_flat]. apply (sum_1 profile slices HJ _ (tet_first 0) (tet_first 2)). intros t a b c. apply first_turn.
  - unfold first_moment. rewrite G; [|apply first_cycle|apply first_flat]. rewrite sum_same by (assumption || (intros; apply first_turn)).
    rewrite (along_tele (fun v => vz v = 0) (band0 (2 * PI / IZR slices) (tet_first 1)) _ (fun v => sin (2 * PI / IZR slices) / 8 * (vx v * vx v * (vy v * vy v))) profile F (fun a b Ha Hb => band_first _ a b Ha Hb) NE).
    cbv beta. rewrite H0, H1. rewrite !along_scale. unfold frustum_moment. rewrite along_scale. unfold polygon_area.
    match goal with |- context [along (fun a b => (vy b - vy a) / 12 * @?K a b) profile] => rewrite (along_ext (fun a b => (vy b - vy a) / 12 * K a b) (fun a b => / 12 * ((vy b - vy a) * K a b))) by (intros; field) end.
    rewrite along_scale. cbv beta. field.
  - unfold first_moment. rewrite G; [|apply first_cycle|apply first_flat]. apply (sum_1 profile slices HJ _ (tet_first 2) (fun a b c => - tet_first 0 a b c)). intros t a b c. destruct (first_turn t a b c) as (_ & _ & ->). ring.
  - intros i j Hi Hj Hij. destruct i as [|[|[|i]]], j as [|[|[|j]]]; try lia; auto; rewrite SYM; auto.
  - assert (D : second_moment V T 0 0 + -1 * second_moment V T 2 2 = 0); [|lra]. unfold second_moment. rewrite <- mesh_sum_scale, <- mesh_sum_plus.
    rewrite G; [|intros; rewrite (second_cycle 0 0), (second_cycle 2 2); reflexivity|intros; rewrite !second_flat; ring].
    apply (sum_2 profile slices HJ _ (fun a b c => tet_second 0 0 a b c - tet_second 2 2 a b c) (fun a b c => 2 * tet_second 0 2 a b c)).
    intros t a b c. destruct (second_turn t a b c) as (_ & _ & _ & E1 & E2). rewrite E1, E2. field.
Qed.

Lemma band_axial d a b : vz a = 0 -> vz b = 0 ->
  band0 d (tet_second 1 1) a b = sin d / 60 * ((vy b - vy a) * (vy a * vy a * (6 * (vx a * vx a) + 3 * (vx a * vx b) + vx b * vx b) + vy a * vy b * (3 * (vx a * vx a) + 4 * (vx a * vx b) + 3 * (vx b * vx b)) +
    vy b * vy b * (vx a * vx a + 3 * (vx a * vx b) + 6 * (vx b * vx b)))) + sin d / 10 * (vx a * vx a * (vy a * vy a * vy a)) - sin d / 10 * (vx b * vx b * (vy b * vy b * vy b)).
Proof.
  destruct a as [x0 y0 z0], b as [x1 y1 z1]. cbn [vx vy vz]. intros -> ->. unfold band0, tet_second, tet_det, vdot, vcross, turn, rot. cbn [vx vy vz comp]. generalize (cos d) (sin d). intros C S. field.
Qed.
(** the product of two vectors in the plane of the rotation *)
Definition flat_dot (u v : vec3) : R := vx u * vx v + vz u * vz v.
Lemma polar_eq a b c : tet_second 0 0 a b c + tet_second 2 2 a b c = tet_det a b c / 60 * (flat_dot a a + flat_dot b b + flat_dot c c + flat_dot a b + flat_dot b c + flat_dot a c).
Proof. unfold tet_second, flat_dot. cbn [comp]. generalize (tet_det a b c). intros D. field. Qed.
Lemma flat_turn t u v : flat_dot (turn t u) (turn t v) = flat_dot u v.
Proof.
  unfold flat_dot, turn, rot. cbn [vx vz]. pose proof (sin2_cos2 t) as H. unfold Rsqr in H. revert H. generalize (cos t) (sin t). intros C S H.
  transitivity ((S * S + C * C) * (vx u * vx v + vz u * vz v)); [ring|]. rewrite H. ring.
Qed.
Lemma band_across d a b : vz a = 0 -> vz b = 0 ->
  band0 d (fun a b c => tet_second 0 0 a b c + tet_second 2 2 a b c) a b =
    sin d * (2 + cos d) / 60 * ((vy b - vy a) * (vx a * vx a * (vx a * vx a) + vx a * vx a * (vx a * vx b) + vx a * vx a * (vx b * vx b) + vx a * vx b * (vx b * vx b) + vx b * vx b * (vx b * vx b))) +
    sin d * (2 + cos d) / 60 * (vx a * vx a * (vx a * vx a) * vy a) - sin d * (2 + cos d) / 60 * (vx b * vx b * (vx b * vx b) * vy b).
Proof.
  intros Ha Hb. unfold band0. cbv beta. rewrite !polar_eq, !flat_turn.
  destruct a as [x0 y0 z0], b as [x1 y1 z1]. cbn [vx vy vz] in *. subst z0 z1. unfold flat_dot, tet_det, vdot, vcross, turn, rot. cbn [vx vy vz]. generalize (cos d) (sin d). intros C S. field.
Qed.
Lemma along_factor {c : R} {g h : vec3 -> vec3 -> R} l : (forall a b, g a b = c * h a b) -> along g l = c * along h l.
Proof. intros E. rewrite (along_ext g (fun a b => c * h a b)) by (intros; apply E). apply along_scale. Qed.
(** The moments of inertia of a solid of revolution: the second moments along the axis and across it are those of the stack of frusta. *)
Theorem C154_inertia profile slices V T : profile_sweep profile slices = Some (V, T) -> profile_ok profile ->
  second_moment V T 1 1 = along (frustum_axial slices) profile /\ second_moment V T 0 0 = along (frustum_across slices) profile /\ second_moment V T 2 2 = along (frustum_across slices) profile.
Proof.
  intros H HP. assert (HJ : (3 <= slices)%Z). { unfold profile_sweep in H. destruct (Z.of_nat (length profile) <=? 2)%Z; [discriminate|]. destruct (Z.leb_spec slices 2); [discriminate|lia]. }
  assert (NE : profile <> []) by (intros ->; discriminate). destruct (C154_sweep _ _ _ _ H HP) as (_ & _ & _ & _ & _ & E02). destruct HP as (F & H0 & H1) eqn:EHP. clear EHP.
  assert (JP : 3 <= IZR slices) by (apply (IZR_le 3); lia).
  assert (G : forall f, (forall a b c, f a b c = f b c a) -> (forall a b, f a b b = 0) -> mesh_sum f V T = sumR (seq 0 (Z.to_nat slices)) (fun j => along (band slices f j) profile)) by (intros f FC FF; exact (sweep_sum f profile slices V T FC FF H HP)).
  split.
  - unfold second_moment. rewrite G; [|apply second_cycle|apply second_flat]. rewrite sum_same.
    2: assumption. 2:{ intros t a b c. unfold tet_second. rewrite turn_det. destruct (comp_turn t a) as (_ & -> & _), (comp_turn t b) as (_ & -> & _), (comp_turn t c) as (_ & -> & _). reflexivity. }
    rewrite (along_tele (fun v => vz v = 0) (band0 (2 * PI / IZR slices) (tet_second 1 1)) _ (fun v => sin (2 * PI / IZR slices) / 10 * (vx v * vx v * (vy v * vy v * vy v))) profile F (fun a b Ha Hb => band_axial _ a b Ha Hb) NE).
    cbv beta. rewrite H0, H1. rewrite along_scale. unfold frustum_axial, polygon_area.
    match goal with |- context [along (fun a b => IZR slices / 2 * sin (2 * PI / IZR slices) * ((vy b - vy a) / 30 * @?K a b)) profile] =>
      rewrite (@along_factor (IZR slices * sin (2 * PI / IZR slices) / 60) (fun a b => IZR slices / 2 * sin (2 * PI / IZR slices) * ((vy b - vy a) / 30 * K a b)) (fun a b => (vy b - vy a) * K a b) profile) by (intros; cbv beta; field; lra) end.
    cbv beta. field; lra.
  - assert (D : second_moment V T 0 0 + 1 * second_moment V T 2 2 = 2 * along (frustum_across slices) profile); [|lra].
    unfold second_moment. rewrite <- mesh_sum_scale, <- mesh_sum_plus.
    rewrite (mesh_sum_ext _ (fun a b c => tet_second 0 0 a b c + tet_second 2 2 a b c)) by (intros; ring).
    rewrite G; [|intros; rewrite (second_cycle 0 0), (second_cycle 2 2); reflexivity|intros; rewrite !second_flat; ring]. rewrite sum_same.
    2: assumption. 2:{ intros t a b c. rewrite !polar_eq, !flat_turn, turn_det. reflexivity. }
    rewrite (along_tele (fun v => vz v = 0) (band0 (2 * PI / IZR slices) (fun a b c => tet_second 0 0 a b c + tet_second 2 2 a b c)) _ (fun v => sin (2 * PI / IZR slices) * (2 + cos (2 * PI / IZR slices)) / 60 * (vx v * vx v * (vx v * vx v) * vy v)) profile F (fun a b Ha Hb => band_across _ a b Ha Hb) NE).
    cbv beta. rewrite H0, H1. rewrite along_scale. unfold frustum_across, polygon_inertia, polygon_area.
    match goal with |- context [along (fun a b => ?c * ((vy b - vy a) / 5 * @?K a b)) profile] =>
      rewrite (@along_factor (c / 5) (fun a b => c * ((vy b - vy a) / 5 * K a b)) (fun a b => (vy b - vy a) * K a b) profile) by (intros; cbv beta; field; lra) end.
    cbv beta. field; lra.
Qed.

(** the area of a polygon in the unit circle is less than that of the circle *)
Lemma polygon_area_bound n : (3 <= n)%Z -> 0 < polygon_area n < PI.
Proof.
  intros H. pose proof (IZR_le 3 n H) as L. pose proof PI_RGT_0 as HP. unfold polygon_area. set (t := 2 * PI / IZR n).
  assert (T0 : 0 < t) by (unfold t; apply Rdiv_lt_0_compat; lra). assert (T1 : t < PI). { unfold t. apply (Rmult_lt_reg_r (IZR n)); [lra|]. replace (2 * PI / IZR n * IZR n) with (2 * PI) by (field; lra). nra. }
  pose proof (sin_gt_0 t T0 T1) as S0. pose proof (sin_lt_x t T0) as S1. assert (E : PI = IZR n / 2 * t) by (unfold t; field; lra). split; [apply Rmult_lt_0_compat; lra|]. rewrite E at 1. apply Rmult_lt_compat_l; lra.
Qed.
(** cylinders, cones and truncated cones *)
Theorem C154_shapes slices segments radius height bottom_radius top_radius V T :
  (create_cylinder radius height slices segments = Some (V, T) -> volume V T = polygon_area slices * (radius * radius) * height /\ first_moment V T 1 = 0) /\
  (create_cone radius height slices = Some (V, T) -> volume V T = polygon_area slices * (radius * radius) * height / 3 /\ first_moment V T 1 = volume V T * (height / 4)) /\
  (create_conical bottom_radius top_radius height slices = Some (V, T) ->
     volume V T = polygon_area slices * height * (bottom_radius * bottom_radius + bottom_radius * top_radius + top_radius * top_radius) / 3 /\
     first_moment V T 1 = polygon_area slices * (height * height) * (bottom_radius * bottom_radius + 2 * (bottom_radius * top_radius) + 3 * (top_radius * top_radius)) / 12).
Proof.
  split; [|split].
  - intros H. unfold create_cylinder in H. destruct (Z.leb_spec segments 0) as [|HS]; [discriminate|].
    assert (POK : profile_ok (cylinder_profile radius height segments)).
    { unfold profile_ok, cylinder_profile. split; [|split].
      - apply Forall_app. split; [repeat constructor|]. apply Forall_app. split; [|repeat constructor]. apply Forall_map. apply Forall_forall. intros; reflexivity.
      - reflexivity.
      - rewrite app_assoc, last_last. reflexivity. }
    destruct (C154_sweep _ _ _ _ H POK) as (-> & _ & -> & _).
    assert (Z0 : IZR segments <> 0) by (apply not_0_IZR; lia).
    set (L := map (fun i => mkV radius (height / IZR segments * (IZR i + 1) - height / 2) 0) (zupto segments)).
    assert (EL : exists M, mkV radius (- height / 2) 0 :: L = M ++ [mkV radius (height / 2) 0]).
    { unfold L, zupto. exists (mkV radius (- height / 2) 0 :: map (fun i => mkV radius (height / IZR segments * (IZR i + 1) - height / 2) 0) (map Z.of_nat (seq 0 (Z.to_nat segments - 1)))).
      replace (Z.to_nat segments) with (S (Z.to_nat segments - 1)) at 1 by lia. rewrite List.seq_S, !map_app. cbn [map app]. apply f_equal. apply f_equal. apply (f_equal (fun y => [mkV radius y 0])).
      replace (IZR (Z.of_nat (0 + (Z.to_nat segments - 1)))) with (IZR segments - 1) by (rewrite <- minus_IZR; f_equal; lia). field. exact Z0. }
    destruct EL as [M EM].
    assert (FL : Forall (fun v => vx v = radius) (mkV radius (- height / 2) 0 :: L)).
    { apply Forall_cons; [reflexivity|]. unfold L. apply Forall_map. apply Forall_forall. intros; reflexivity. }
    assert (EP : cylinder_profile radius height segments = mkV 0 (- height / 2) 0 :: (mkV radius (- height / 2) 0 :: L) ++ [mkV 0 (height / 2) 0]) by reflexivity. rewrite EP.
    assert (NL : nth (length (mkV radius (- height / 2) 0 :: L) - 1) (mkV radius (- height / 2) 0 :: L) vzero = mkV radius (height / 2) 0).
    { rewrite EM, app_length, Nat.add_sub. rewrite app_nth2, Nat.sub_diag by lia. reflexivity. }
    assert (LL : last (mkV radius (- height / 2) 0 :: L) vzero = mkV radius (height / 2) 0) by (rewrite EM; apply last_last).
    rewrite !along_split by discriminate. rewrite NL. cbn [nth].
    assert (Z1 : forall l, along (fun _ _ => 0) l = 0). { induction l as [|a [|b l] IH]; [reflexivity|reflexivity|]. change (0 + along (fun _ _ => 0) (b :: l) = 0). rewrite IH. ring. }
    split.
    + rewrite (along_tele (fun v => vx v = radius) (frustum slices) (fun _ _ => 0) (fun v => - (polygon_area slices * (radius * radius) * vy v)) _ FL); [|intros a b Ea Eb; unfold frustum; rewrite Ea, Eb; field|discriminate].
      rewrite LL, Z1. unfold frustum. cbn [hd vx vy]. field.
    + rewrite (along_tele (fun v => vx v = radius) (frustum_moment slices) (fun _ _ => 0) (fun v => - (polygon_area slices * (radius * radius) * (vy v * vy v) / 2)) _ FL); [|intros a b Ea Eb; unfold frustum_moment; rewrite Ea, Eb; field|discriminate].
      rewrite LL, Z1. unfold frustum_moment. cbn [hd vx vy]. field.
  - intros H. unfold create_cone in H. destruct (C154_sweep _ _ _ _ H) as (-> & _ & -> & _); [repeat constructor|]. unfold frustum, frustum_moment. cbn [along vx vy]. split; field.
  - intros H. unfold create_conical in H. destruct (C154_sweep _ _ _ _ H) as (-> & _ & -> & _); [repeat constructor|]. unfold frustum, frustum_moment. cbn [along vx vy]. split; field.
Qed.
(** the polygon of the slices is inside the unit circle: no solid of revolution is larger than the round solid *)
Theorem C154_round n : (3 <= n)%Z -> 0 < polygon_area n < PI.
Proof. exact (polygon_area_bound n). Qed.
(** a truncated cone of twelve slices *)
Example C154_nonvacuous : exists V T, create_conical 2 1 3 12 = Some (V, T) /\ length V = 26%nat /\ length T = 48%nat /\ volume V T = 21.
Proof.
  destruct (create_conical 2 1 3 12) as [[V T]|] eqn:E.
  2:{ exfalso. destruct (C37_swept_total 12 3 1 1 2 1 1 1 1 ltac:(lia) ltac:(lia)) as (_ & _ & K & _). unfold create_conical in *. revert E K. unfold profile_sweep. cbn [length Z.of_nat Pos.of_succ_nat Pos.succ Z.leb Z.compare Pos.compare Pos.compare_cont]. intros K. discriminate K. }
  exists V, T. split; [reflexivity|].
  assert (L : length V = 26%nat /\ length T = 48%nat).
  { unfold create_conical, profile_sweep in E. cbn [length Z.of_nat Pos.of_succ_nat Pos.succ Z.leb Z.compare Pos.compare Pos.compare_cont] in E.
    assert (PI1 : forall (a b : list vec3 * list tri), Some a = Some b -> a = b) by congruence. apply PI1 in E. symmetry in E. apply (f_equal fst) in E as E1. apply (f_equal snd) in E as E2. cbn [fst snd] in E1, E2. subst V T. split; [|reflexivity].
    rewrite app_length. apply Nat2Z.inj. rewrite Nat2Z.inj_add, sweep_V_len by lia. reflexivity. }
  destruct L as [L1 L2]. split; [exact L1|]. split; [exact L2|].
  destruct (C154_shapes 12 0 0 3 2 1 V T) as (_ & _ & K). destruct (K E) as [-> _]. unfold polygon_area. replace (2 * PI / 12) with (PI / 6) by field. rewrite sin_PI6. field.
Qed.
Print Assumptions C154_sweep.
Print Assumptions C154_inertia.
Print Assumptions C154_shapes.
Print Assumptions C154_round.
