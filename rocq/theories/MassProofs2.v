(** Proofs about mass.py, continued: linear maps, eigenbases, the body frame *)
From Verif Require Import Base QuatModel VecModel VecProofs BvhModel GridModel VolModel RigidTypes CollModel QuatProofs QuatMatProofs
  MassModel MassSpec MassProofs SurfSpec.
Open Scope R_scope.

Definition ment (M : mat3) (i k : nat) : R := comp (mcol M k) i.
Lemma tet_det_linear M a b c : tet_det (mvec M a) (mvec M b) (mvec M c) = mdet M * tet_det a b c.
Proof. destruct M, a, b, c. unfold tet_det. vunf. ring. Qed.
Lemma mvec_comp M a i : (i < 3)%nat -> comp (mvec M a) i = ment M i 0 * comp a 0 + ment M i 1 * comp a 1 + ment M i 2 * comp a 2.
Proof. intros H. destruct M, a. destruct i as [|[|[|i]]]; [| | |lia]; unfold ment; cbn; vunf; reflexivity. Qed.
Lemma linear_volume M V T : indices_exist V T -> volume (map (mvec M) V) T = mdet M * volume V T.
Proof.
  intros HI. unfold volume. rewrite mesh_sum_map by auto. rewrite <- mesh_sum_scale. apply mesh_sum_ext. intros a b c. unfold tet_volume. rewrite tet_det_linear. field.
Qed.
Lemma linear_first M V T i : (i < 3)%nat -> indices_exist V T -> first_moment (map (mvec M) V) T i =
  mdet M * (ment M i 0 * first_moment V T 0 + (ment M i 1 * first_moment V T 1 + ment M i 2 * first_moment V T 2)).
Proof.
  intros Hi HI. unfold first_moment. rewrite mesh_sum_map by auto. rewrite <- !mesh_sum_scale, <- !mesh_sum_plus, <- mesh_sum_scale. apply mesh_sum_ext.
  intros a b c. unfold tet_first. rewrite tet_det_linear, !mvec_comp by auto. field.
Qed.
Lemma linear_second M V T i j : (i < 3)%nat -> (j < 3)%nat -> indices_exist V T -> second_moment (map (mvec M) V) T i j =
  mdet M * (ment M i 0 * (ment M j 0 * second_moment V T 0 0 + (ment M j 1 * second_moment V T 0 1 + ment M j 2 * second_moment V T 0 2))
          + (ment M i 1 * (ment M j 0 * second_moment V T 1 0 + (ment M j 1 * second_moment V T 1 1 + ment M j 2 * second_moment V T 1 2))
           + ment M i 2 * (ment M j 0 * second_moment V T 2 0 + (ment M j 1 * second_moment V T 2 1 + ment M j 2 * second_moment V T 2 2)))).
Proof.
  intros Hi Hj HI. unfold second_moment. rewrite mesh_sum_map by auto. rewrite <- !mesh_sum_scale, <- !mesh_sum_plus, <- !mesh_sum_scale, <- !mesh_sum_plus, <- mesh_sum_scale. apply mesh_sum_ext.
  intros a b c. unfold tet_second. rewrite tet_det_linear, !mvec_comp by auto. generalize (tet_det a b c), (mdet M). intros. field.
Qed.
Lemma second_sym V T i j : second_moment V T i j = second_moment V T j i.
Proof. unfold second_moment. apply mesh_sum_ext. intros. unfold tet_second. ring. Qed.

(** ** eigenbases *)
Definition madj (M : mat3) : mat3 :=
  let '(mkM a b c d e f g h i) := M in mkM (e*i-f*h) (c*h-b*i) (b*f-c*e) (f*g-d*i) (a*i-c*g) (c*d-a*f) (d*h-e*g) (b*g-a*h) (a*e-b*d).
Lemma madj_r M : mmul M (madj M) = mkM (mdet M) 0 0 0 (mdet M) 0 0 0 (mdet M).
Proof. destruct M. unfold madj. vunf. f_equal; ring. Qed.
Lemma mmul_assoc A B C : mmul (mmul A B) C = mmul A (mmul B C).
Proof. vring. Qed.
Lemma mmul_id_r A : mmul A mid = A. Proof. vring. Qed.
Lemma mmul_id_l A : mmul mid A = A. Proof. vring. Qed.
Lemma mdet_mul A B : mdet (mmul A B) = mdet A * mdet B. Proof. vring. Qed.
Lemma mdet_T A : mdet (mT A) = mdet A. Proof. vring. Qed.
Lemma mcancel X Y M : mdet M <> 0 -> mmul X M = mmul Y M -> X = Y.
Proof.
  intros HD H. apply (f_equal (fun Z => mmul Z (madj M))) in H. rewrite !mmul_assoc, madj_r in H.
  destruct X, Y. generalize dependent (mdet M). intros D HD H. vunf. injection H; intros. f_equal; apply (Rmult_eq_reg_r D); auto; lra.
Qed.
Lemma orth_right E : mmul (mT E) E = mid -> mmul E (mT E) = mid /\ mdet E * mdet E = 1.
Proof.
  intros H. assert (HD : mdet E * mdet E = 1). { rewrite <- (mdet_T E) at 1. rewrite <- mdet_mul, H. vring. }
  split; auto. apply (mcancel _ _ E). { intros Z. rewrite Z in HD. lra. } rewrite mmul_assoc, H, mmul_id_l, mmul_id_r. reflexivity.
Qed.
Lemma mat_eq A B : m00 A = m00 B -> m01 A = m01 B -> m02 A = m02 B -> m10 A = m10 B -> m11 A = m11 B -> m12 A = m12 B -> m20 A = m20 B -> m21 A = m21 B -> m22 A = m22 B -> A = B.
Proof. destruct A, B; cbn. intros; subst; reflexivity. Qed.
Lemma sort_order_spec d : let '(i, j, k) := sort_order d in In (i, j, k) permutations /\ comp d k <= comp d j <= comp d i.
Proof.
  unfold sort_order. destruct d as [x y z].
  unfold permutations. cbn [find comp vx vy vz].
  destruct (Rleb_spec y x), (Rleb_spec z y), (Rleb_spec z x), (Rleb_spec y z), (Rleb_spec x y), (Rleb_spec x z); cbn [andb comp vx vy vz]; try (exfalso; lra);
  (split; [cbn; tauto|lra]).
Qed.
Lemma eig_perm A d E i j k : eigen_basis A (d, E) -> In (i, j, k) permutations ->
  eigen_basis A (mkV (comp d i) (comp d j) (comp d k), from_cols (mcol E i) (mcol E j) (mcol E k)).
Proof.
  unfold eigen_basis. cbn [fst snd]. intros [H1 H2] HP. cbn in HP.
  destruct A as [a00 a01 a02 a10 a11 a12 a20 a21 a22], E as [e00 e01 e02 e10 e11 e12 e20 e21 e22], d as [d0 d1 d2].
  vunf. injection H1; intros. injection H2; intros. clear H1 H2.
  repeat match goal with H : _ \/ _ |- _ => destruct H as [H|H] | H : False |- _ => destruct H end;
  injection HP; intros; subst i j k; unfold from_cols; cbn [mcol comp vx vy vz m00 m01 m02 m10 m11 m12 m20 m21 m22]; split; f_equal; lra.
Qed.
Lemma eig_flip A d E : eigen_basis A (d, E) -> eigen_basis A (d, from_cols (vopp (mcol E 0)) (mcol E 1) (mcol E 2)) /\
   mdet (from_cols (vopp (mcol E 0)) (mcol E 1) (mcol E 2)) = - mdet E.
Proof.
  unfold eigen_basis. cbn [fst snd]. intros [H1 H2]. destruct A as [a00 a01 a02 a10 a11 a12 a20 a21 a22], E as [e00 e01 e02 e10 e11 e12 e20 e21 e22], d as [d0 d1 d2]. unfold from_cols. cbn [mcol comp vx vy vz m00 m01 m02 m10 m11 m12 m20 m21 m22]. vunf. injection H1; intros. injection H2; intros. clear H1 H2.
  split; [split; f_equal; lra|ring].
Qed.
Lemma from_cols_id E : from_cols (mcol E 0) (mcol E 1) (mcol E 2) = E.
Proof. destruct E. reflexivity. Qed.
Lemma rotate_to_model_spec eig p : eigen_basis (inertia_matrix p) (eig (inertia_matrix p)) ->
  exists q d, rotate_to_model eig p = Some (q, d) /\ is_unit q /\ vz d <= vy d <= vx d /\
    mmul (inertia_matrix p) (umat q) = mmul (umat q) (mdiag d).
Proof.
  intros H. unfold rotate_to_model. destruct (eig (inertia_matrix p)) as [d E]. pose proof (sort_order_spec d) as HS. destruct (sort_order d) as [[i j] k]. destruct HS as [HP HO].
  assert (H1 := eig_perm _ _ _ i j k H HP). set (E1 := from_cols _ _ _) in *. set (d1 := mkV _ _ _) in *. cbv zeta.
  destruct (orth_right E1 (proj2 H1)) as [O1 D1].
  assert (exists E2, (if Rltb (mdet E1) 0 then from_cols (vopp (mcol E1 0)) (mcol E1 1) (mcol E1 2) else E1) = E2 /\ eigen_basis (inertia_matrix p) (d1, E2) /\ mdet E2 = 1) as (E2 & -> & H2 & HD).
  { assert (HE : mdet E1 = 1 \/ mdet E1 = -1).
    { assert ((mdet E1 - 1) * (mdet E1 + 1) = 0) as Z by lra. apply Rmult_integral in Z. lra. }
    destruct (Rltb_spec (mdet E1) 0); eexists; (split; [reflexivity|]).
    - destruct (eig_flip _ _ _ H1) as [X Y]. split; auto. rewrite Y. lra.
    - split; auto. lra. }
  destruct (orth_right E2 (proj2 H2)) as [O2 _].
  destruct (from_matrix_correct E2 (conj O2 HD)) as (q & -> & HQ & HU). exists q, d1. split; [reflexivity|]. split; auto. split. { unfold d1; cbn. lra. }
  rewrite HU. apply (proj1 H2).
Qed.
Definition madd (A B : mat3) : mat3 := mkM (m00 A + m00 B) (m01 A + m01 B) (m02 A + m02 B) (m10 A + m10 B) (m11 A + m11 B) (m12 A + m12 B) (m20 A + m20 B) (m21 A + m21 B) (m22 A + m22 B).
Lemma madd_conj P A B Q : mmul (mmul P (madd A B)) Q = madd (mmul (mmul P A) Q) (mmul (mmul P B) Q).
Proof. unfold madd. destruct P, A, B, Q. vunf. f_equal; ring. Qed.
(** |x|^2 I - x x^T *)
Lemma point_tensor Q m x : is_rotation Q ->
  (let pt := fun (m : R) (x : vec3) => mkM (m * (vy x * vy x + vz x * vz x)) (- (m * (vx x * vy x))) (- (m * (vx x * vz x))) (- (m * (vx x * vy x))) (m * (vx x * vx x + vz x * vz x)) (- (m * (vy x * vz x))) (- (m * (vx x * vz x))) (- (m * (vy x * vz x))) (m * (vx x * vx x + vy x * vy x)) in
  pt m (mvec (mT Q) x) = mmul (mmul (mT Q) (pt m x)) Q).
Proof.
  intros [HQ HD]. set (x' := mvec (mT Q) x).
  assert (N : vx x' * vx x' + vy x' * vy x' + vz x' * vz x' = vx x * vx x + vy x * vy x + vz x * vz x).
  { transitivity (vdot (mvec (mmul Q (mT Q)) x) x). { unfold x'. vring. } rewrite HQ. vring. }
  assert (QQ : mmul (mT Q) Q = mid). { apply (orth_right (mT Q)). replace (mT (mT Q)) with Q by vring. auto. }
  cbv zeta. set (n := vx x * vx x + vy x * vy x + vz x * vz x) in *.
  transitivity (mkM (m * (n * m00 mid - vx x' * vx x')) (m * (n * m01 mid - vx x' * vy x')) (m * (n * m02 mid - vx x' * vz x')) (m * (n * m10 mid - vx x' * vy x')) (m * (n * m11 mid - vy x' * vy x')) (m * (n * m12 mid - vy x' * vz x')) (m * (n * m20 mid - vx x' * vz x')) (m * (n * m21 mid - vy x' * vz x')) (m * (n * m22 mid - vz x' * vz x'))).
  { cbn [mid m00 m01 m02 m10 m11 m12 m20 m21 m22]. rewrite <- N. f_equal; ring. }
  rewrite <- QQ. unfold n, x'. clear. destruct Q, x. vunf. f_equal; ring.
Qed.
Definition msc (k : R) (A : mat3) : mat3 := mkM (k * m00 A) (k * m01 A) (k * m02 A) (k * m10 A) (k * m11 A) (k * m12 A) (k * m20 A) (k * m21 A) (k * m22 A).
Lemma linear_S M V T : indices_exist V T -> mesh_S (map (mvec M) V) T = msc (mdet M) (mmul (mmul M (mesh_S V T)) (mT M)).
Proof.
  intros HI. unfold mesh_S. rewrite !linear_second by (auto; lia). generalize (second_moment V T), (mdet M). intros s k. destruct M. unfold msc, ment. cbn [mcol comp]. vunf. f_equal; ring.
Qed.
Lemma mesh_S_sym V T : mT (mesh_S V T) = mesh_S V T.
Proof. unfold mesh_S. pose proof (second_sym V T) as H. vunf. rewrite (H 1%nat 0%nat), (H 2%nat 0%nat), (H 2%nat 1%nat). reflexivity. Qed.
Lemma S_of_tensor V T : let J := mesh_tensor V T in let t := (m00 J + m11 J + m22 J) / 2 in mesh_S V T = madd (msc t mid) (msc (-1) J).
Proof.
  cbv zeta. unfold mesh_S, mesh_tensor. rewrite (second_sym V T 1 0), (second_sym V T 2 0), (second_sym V T 2 1). generalize (second_moment V T). intros s. unfold madd, msc. vunf. f_equal; field.
Qed.
Lemma diagonal_S V T Q d : indices_exist V T -> is_rotation Q -> mmul (mesh_tensor V T) Q = mmul Q (mdiag d) ->
  mesh_tensor (map (mvec (mT Q)) V) T = mdiag d.
Proof.
  intros HI HQ HE. pose proof (linear_S (mT Q) V T HI) as L. pose proof (S_of_tensor V T) as ST. cbv zeta in ST. rewrite ST in L. clear ST.
  destruct HQ as [HQ HD]. assert (QQ : mmul (mT Q) Q = mid). { apply (orth_right (mT Q)). replace (mT (mT Q)) with Q by vring. auto. }
  rewrite mdet_T, HD in L. set (J := mesh_tensor V T) in *. replace (mT (mT Q)) with Q in L by vring. rewrite madd_conj in L.
  assert (X1 : forall t, mmul (mmul (mT Q) (msc t mid)) Q = msc t mid). { intros t. rewrite <- QQ at 2. unfold msc. vring. }
  assert (X2 : mmul (mmul (mT Q) (msc (-1) J)) Q = msc (-1) (mdiag d)).
  { replace (mmul (mmul (mT Q) (msc (-1) J)) Q) with (msc (-1) (mmul (mT Q) (mmul J Q))) by (unfold msc; vring). rewrite HE, <- mmul_assoc, QQ, mmul_id_l. reflexivity. }
  rewrite X1, X2 in L. assert (TR : m00 J + m11 J + m22 J = vx d + vy d + vz d).
  { assert (Y : mmul J (mmul Q (mT Q)) = mmul (mmul Q (mdiag d)) (mT Q)) by (rewrite <- HE, mmul_assoc; reflexivity). rewrite HQ, mmul_id_r in Y. rewrite Y.
    transitivity (vx d * m00 (mmul (mT Q) Q) + vy d * m11 (mmul (mT Q) Q) + vz d * m22 (mmul (mT Q) Q)). { destruct Q, d. vunf. ring. } rewrite QQ. vunf. ring. }
  rewrite TR in L. revert L. unfold mesh_S, mesh_tensor. set (s := second_moment (map (mvec (mT Q)) V) T). clearbody s. unfold madd, msc. destruct d as [d0 d1 d2]. vunf. intros L. injection L; intros. f_equal; lra.
Qed.
Lemma unit_eig_orth A d E : mT A = A -> eigen_pairs A (d, E) -> vx d <> vy d -> vx d <> vz d -> vy d <> vz d -> eigen_basis A (d, E).
Proof.
  intros HS [H1 H2] D1 D2 D3. split; auto. cbn [fst snd] in *. pose proof (H2 0%nat ltac:(lia)) as N0. pose proof (H2 1%nat ltac:(lia)) as N1. pose proof (H2 2%nat ltac:(lia)) as N2. clear H2.
  set (G := mmul (mT E) E).
  assert (C : mmul G (mdiag d) = mmul (mdiag d) G).
  { unfold G. rewrite mmul_assoc, <- H1, <- mmul_assoc. replace (mmul (mT E) A) with (mT (mmul (mT A) E)) by vring. rewrite HS, H1. vring. }
  assert (GS : mT G = G) by (unfold G; vring).
  assert (G0 : m00 G = 1 /\ m11 G = 1 /\ m22 G = 1). { unfold G. destruct E. cbn [mcol] in *. vunf. lra. } clearbody G. clear - C GS G0 D1 D2 D3.
  destruct G as [g00 g01 g02 g10 g11 g12 g20 g21 g22], d as [d0 d1 d2]. vunf. injection C; intros. injection GS; intros. subst.
  assert (Z : forall g a b, a <> b -> g * a = b * g -> g = 0). { intros g a b Hab Hg. assert (g * (a - b) = 0) as W by lra. apply Rmult_integral in W. lra. }
  destruct G0 as (-> & -> & ->). f_equal; auto; match goal with |- ?g = 0 => first [apply (Z g d1 d0); [auto|lra] | apply (Z g d2 d0); [auto|lra] | apply (Z g d2 d1); [auto|lra]] end.
Qed.
