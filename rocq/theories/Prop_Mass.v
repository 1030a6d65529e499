(** Mass properties: C61, C62, C80, C81. *)
From Verif Require Import Base QuatModel VecModel VecProofs BvhModel GridModel VolModel RigidTypes CollModel QuatProofs QuatMatProofs
  MassModel MassSpec MassProofs MassProofs2 SurfSpec TetIntegral Prop_Surface RotProofs.
Open Scope R_scope.

(** * C61 *)
Lemma vat_some V i p : py_get V i = Some p -> vat V i = p.
Proof. unfold vat. intros ->. reflexivity. Qed.
Lemma mass_loop_spec V T : indices_exist V T -> proper_triangles V T -> forall M,
  mass_loop V T M = Some (mkMom (T0 M + mesh_sum s_0 V T) (vadd (T1 M) (vec_of (fun i => mesh_sum (s_1 i) V T)))
     (vadd (T2 M) (vec_of (fun i => mesh_sum (s_2 i) V T))) (vadd (TP M) (vec_of (fun i => mesh_sum (s_p i) V T)))).
Proof.
  induction T as [|[[i j] k] T IH]; intros HI HP M; cbn [mass_loop mesh_sum fold_right].
  - f_equal. destruct M as [t0 [u0 u1 u2] [v0 v1 v2] [w0 w1 w2]]. unfold vadd, vec_of; cbn. f_equal; try (f_equal; ring); ring.
  - destruct (HI i j k (or_introl eq_refl)) as (Hi & Hj & Hk).
    destruct (py_get V i) as [p0|] eqn:Ei; [|congruence]. destruct (py_get V j) as [p1|] eqn:Ej; [|congruence]. destruct (py_get V k) as [p2|] eqn:Ek; [|congruence].
    assert (HA := HP i j k (or_introl eq_refl)). rewrite (vat_some _ _ _ Ei), (vat_some _ _ _ Ej), (vat_some _ _ _ Ek) in HA.
    rewrite mass_step_spec by exact HA. rewrite IH.
    + unfold mesh_sum. rewrite (vat_some _ _ _ Ei), (vat_some _ _ _ Ej), (vat_some _ _ _ Ek). unfold add_mom. cbn [T0 T1 T2 TP]. f_equal.
      destruct M as [t0 [u0 u1 u2] [v0 v1 v2] [w0 w1 w2]]. unfold vadd, vec_of; cbn [vx vy vz T0 T1 T2 TP]. f_equal; try (f_equal; ring); ring.
    + intros a b c H. apply HI. right; auto.
    + intros a b c H. apply HP. right; auto.
Qed.
Lemma mesh_sum_div f c V T : mesh_sum f V T / c = mesh_sum (fun a b d => f a b d / c) V T.
Proof. unfold mesh_sum. induction T as [|[[i j] k] T IH]; cbn; [unfold Rdiv; ring|]. rewrite <- IH. unfold Rdiv; ring. Qed.
Lemma clamp_pos_spec x : pos_up_to_clamp x (clamp_pos x).
Proof. unfold pos_up_to_clamp, clamp_pos, too_small. destruct (Rltb_spec (1 / 10000000000) x); [left|right]; lra. Qed.
Lemma clamp_abs_spec x : abs_up_to_clamp x (clamp_abs x).
Proof. unfold abs_up_to_clamp, clamp_abs, too_small. destruct (Rltb_spec (1 / 10000000000) (Rabs x)); [left|right]; lra. Qed.

(** Closed meshes: the call raises exactly when the signed volume is not positive; otherwise mass, centre of mass and
    inertia tensor are those of the enclosed solid (numbers up to 1e-10 are replaced by 0). *)
Theorem C61_closed V T density : indices_exist V T -> closed_mesh T -> proper_triangles V T ->
  (volume V T <= 0 -> compute_mass_properties V T density = None) /\
  (0 < volume V T -> exists p, compute_mass_properties V T density = Some p /\
     pos_up_to_clamp (density * volume V T) (mp_mass p) /\
     (forall i, (i < 3)%nat -> abs_up_to_clamp (first_moment V T i / volume V T) (comp (mp_c p) i)) /\
     pos_up_to_clamp (density * (second_moment V T 1 1 + second_moment V T 2 2)) (mp_xx p) /\
     pos_up_to_clamp (density * (second_moment V T 0 0 + second_moment V T 2 2)) (mp_yy p) /\
     pos_up_to_clamp (density * (second_moment V T 0 0 + second_moment V T 1 1)) (mp_zz p) /\
     abs_up_to_clamp (- density * second_moment V T 0 1) (mp_xy p) /\
     abs_up_to_clamp (- density * second_moment V T 0 2) (mp_xz p) /\
     abs_up_to_clamp (- density * second_moment V T 1 2) (mp_yz p)).
Proof.
  intros HI HC HP. unfold compute_mass_properties. rewrite (mass_loop_spec V T HI HP). cbn [T0 T1 T2 TP]. rewrite Rplus_0_l, (closed_0 V T HC).
  fold (volume V T). split; intros Hv.
  - destruct (Rltb_spec 0 (volume V T)); [lra|reflexivity].
  - destruct (Rltb_spec 0 (volume V T)); [|lra]. eexists. split; [reflexivity|]. unfold vec_of, vdiv, vadd, vzero; cbn [vx vy vz mp_mass mp_c mp_xx mp_yy mp_zz mp_xy mp_xz mp_yz].
    assert (R1 : forall i, (i < 3)%nat -> mesh_sum (s_1 i) V T / 2 = first_moment V T i) by (intros i Hi; rewrite mesh_sum_div; apply closed_1; auto).
    assert (R2 : forall i, (i < 3)%nat -> mesh_sum (s_2 i) V T / 3 = second_moment V T i i) by (intros i Hi; rewrite mesh_sum_div; apply closed_2; auto).
    assert (RP : forall i, (i < 3)%nat -> mesh_sum (s_p i) V T / 2 = second_moment V T i ((i + 1) mod 3)) by (intros i Hi; rewrite mesh_sum_div; apply closed_p; auto).
    rewrite !Rplus_0_l, !R1, !R2, !RP by lia. cbn [Nat.modulo Nat.add Nat.divmod Nat.sub fst snd].
    change (Nat.modulo 1 3) with 1%nat. change (Nat.modulo 2 3) with 2%nat. change (Nat.modulo 3 3) with 0%nat.
    assert (Sym : second_moment V T 2 0 = second_moment V T 0 2).
    { unfold second_moment, mesh_sum. f_equal. clear. apply FunctionalExtensionality.functional_extensionality. intros [[i j] k]. apply FunctionalExtensionality.functional_extensionality. intros s. f_equal. unfold tet_second. ring. }
    split; [apply clamp_pos_spec|]. split. { intros i Hi. destruct i as [|[|[|i]]]; [| | |lia]; apply clamp_abs_spec. }
    split; [apply clamp_pos_spec|]. split; [rewrite Rplus_comm; apply clamp_pos_spec|]. split; [apply clamp_pos_spec|]. split; [apply clamp_abs_spec|].
    split; [rewrite <- Sym; apply clamp_abs_spec|apply clamp_abs_spec].
Qed.
(** The three formulas of the specification are the integrals of 1, x_i and x_i x_j over the tetrahedron. *)
Theorem C61_tetrahedron a b c i j : tet_integral (fun _ => 1) a b c = tet_volume a b c /\
  tet_integral (fun p => comp p i) a b c = tet_first i a b c /\
  tet_integral (fun p => comp p i * comp p j) a b c = tet_second i j a b c.
Proof. apply tet_integrals. Qed.
(** Moving the mesh moves the centre of mass with it (up to the clamp) and keeps the mass; the same meshes are refused. *)
Lemma shift_proper t V T : indices_exist V T -> proper_triangles V T -> proper_triangles (map (vadd t) V) T.
Proof.
  intros HI HP i j k Hin. destruct (HI i j k Hin) as (A & B & C). rewrite !py_get_map_vat by auto. specialize (HP i j k Hin).
  replace (vsub (vadd t (vat V j)) (vadd t (vat V i))) with (vsub (vat V j) (vat V i)) by vring.
  replace (vsub (vadd t (vat V k)) (vadd t (vat V i))) with (vsub (vat V k) (vat V i)) by vring. exact HP.
Qed.
Lemma shift_indices f V T : indices_exist V T -> indices_exist (map f V) T.
Proof.
  intros HI i j k Hin. destruct (HI i j k Hin) as (A & B & C). rewrite !ReadyProofs.py_get_map.
  destruct (py_get V i), (py_get V j), (py_get V k); cbn; try congruence. repeat split; discriminate.
Qed.
Lemma clamp_close x y : abs_up_to_clamp x y -> Rabs (y - x) <= 1 / 10000000000.
Proof.
  intros [[_ ->]|[H ->]]. - rewrite Rminus_diag_eq, Rabs_R0 by auto. lra. - rewrite Rminus_0_l, Rabs_Ropp. auto.
Qed.
Theorem C61_moved V T t density : indices_exist V T -> closed_mesh T -> proper_triangles V T ->
  let V' := map (vadd t) V in
  match compute_mass_properties V T density, compute_mass_properties V' T density with
  | None, None => True
  | Some p, Some p' => mp_mass p' = mp_mass p /\
      forall i, (i < 3)%nat -> Rabs (comp (mp_c p') i - (comp (mp_c p) i + comp t i)) <= 2 / 10000000000
  | _, _ => False
  end.
Proof.
  intros HI HC HP V'. pose proof (shift_indices (vadd t) V T HI) as HI'. pose proof (shift_proper t V T HI HP) as HP'. fold V' in HI', HP'.
  destruct (C61_closed V T density HI HC HP) as [N1 S1]. destruct (C61_closed V' T density HI' HC HP') as [N2 S2].
  assert (EV : volume V' T = volume V T) by (apply shift_volume; auto).
  destruct (Rle_lt_dec (volume V T) 0) as [Hv|Hv]. { rewrite N1, N2 by lra. exact I. }
  destruct (S1 Hv) as (p & -> & M1 & C1 & _). destruct (S2 ltac:(lra)) as (p' & -> & M2 & C2 & _). rewrite EV in *. split.
  - destruct M1 as [[? ->]|[? ->]], M2 as [[? ->]|[? ->]]; lra.
  - intros i Hi. specialize (C1 i Hi). specialize (C2 i Hi). apply clamp_close in C1, C2. unfold V' in C2 at 1. rewrite shift_first in C2 by auto.
    replace ((first_moment V T i + comp t i * volume V T) / volume V T) with (first_moment V T i / volume V T + comp t i) in C2 by (field; lra).
    revert C1 C2. unfold Rabs; repeat destruct Rcase_abs; lra.
Qed.
(** A concrete mesh: the unit tetrahedron. *)
Definition tetV : list vec3 := [mkV 0 0 0; mkV 1 0 0; mkV 0 1 0; mkV 0 0 1].
Definition tetT : list tri := [(0, 2, 1); (0, 1, 3); (0, 3, 2); (1, 2, 3)]%Z.
Lemma tet_vats : vat tetV 0 = mkV 0 0 0 /\ vat tetV 1 = mkV 1 0 0 /\ vat tetV 2 = mkV 0 1 0 /\ vat tetV 3 = mkV 0 0 1.
Proof. repeat split. Qed.
Ltac in4 H := repeat match type of H with _ \/ _ => destruct H as [H|H] | False => destruct H end.
Example C61_nonvacuous : indices_exist tetV tetT /\ closed_mesh tetT /\ proper_triangles tetV tetT /\ volume tetV tetT = 1 / 6 /\
  (forall i, (i < 3)%nat -> first_moment tetV tetT i / volume tetV tetT = 1 / 4).
Proof.
  split. { intros i j k H. unfold tetT in H. cbn in H. in4 H; injection H; intros; subst; cbn; repeat split; discriminate. }
  split. { apply closedb_ok. reflexivity. }
  split. { intros i j k H Z. unfold tetT in H. cbn in H. apply (f_equal (fun v => vx v + vy v + vz v)) in Z. in4 H; injection H; intros; subst; revert Z; unfold vat, tetV; vm_compute py_get; cbn; lra. }
  destruct tet_vats as (E0 & E1 & E2 & E3).
  assert (EV : volume tetV tetT = 1 / 6). { unfold volume, mesh_sum, tetT. cbn [fold_right]. rewrite E0, E1, E2, E3. unfold tet_volume, tet_det. vunf. field. }
  split; auto. intros i Hi. rewrite EV. unfold first_moment, mesh_sum, tetT. cbn [fold_right]. rewrite E0, E1, E2, E3. unfold tet_first, tet_det. vunf. destruct i as [|[|[|i]]]; [| | |lia]; cbn; field.
Qed.
Print Assumptions C61_closed. Print Assumptions C61_tetrahedron. Print Assumptions C61_moved.

(** * C62 *)
Lemma msum_ext f g D : (forall m p, f m p = g m p) -> msum f D = msum g D.
Proof. intros H. unfold msum. induction D as [|[m p] D IH]; cbn; auto. rewrite H, IH. reflexivity. Qed.
Lemma msum_plus f g D : msum (fun m p => f m p + g m p) D = msum f D + msum g D.
Proof. unfold msum. induction D as [|[m p] D IH]; cbn; [ring|]. rewrite IH. ring. Qed.
Lemma msum_scale s f D : msum (fun m p => s * f m p) D = s * msum f D.
Proof. unfold msum. induction D as [|[m p] D IH]; cbn; [ring|]. rewrite IH. ring. Qed.
Lemma msum_map h f D : msum f (map (fun d => (fst d, h (snd d))) D) = msum (fun m p => f m (h p)) D.
Proof. unfold msum. induction D as [|[m p] D IH]; cbn; [ring|]. rewrite IH. ring. Qed.
Definition mprod (g h : vec3 -> R) (D : masses) : R := msum (fun m p => m * (g p * h p)) D.
Definition mlin (g : vec3 -> R) (D : masses) : R := msum (fun m p => m * g p) D.
Lemma shift_lin g c D (G : forall p, g (vsub p c) = g p - g c) : mlin g (shifted c D) = mlin g D - g c * d_mass D.
Proof.
  unfold mlin, shifted, d_mass. rewrite (msum_map (fun p => vsub p c)). replace (msum (fun m p => m * g p) D - g c * msum (fun m _ => m) D) with (msum (fun m p => m * g p) D + (- g c) * msum (fun m _ => m) D) by ring.
  rewrite <- msum_scale, <- msum_plus. apply msum_ext. intros. rewrite G. ring.
Qed.
Lemma shift_prod g h c D (G : forall p, g (vsub p c) = g p - g c) (H : forall p, h (vsub p c) = h p - h c) :
  mprod g h (shifted c D) = mprod g h D + (- g c * mlin h D + (- h c * mlin g D + g c * h c * d_mass D)).
Proof.
  unfold mprod, mlin, shifted, d_mass. rewrite (msum_map (fun p => vsub p c)). rewrite <- !msum_scale, <- !msum_plus. apply msum_ext. intros. rewrite G, H. ring.
Qed.
Lemma d_forms D : d_xx D = mprod vy vy D + mprod vz vz D /\ d_yy D = mprod vx vx D + mprod vz vz D /\ d_zz D = mprod vx vx D + mprod vy vy D /\
  d_xy D = - mprod vx vy D /\ d_xz D = - mprod vx vz D /\ d_yz D = - mprod vy vz D.
Proof.
  unfold d_xx, d_yy, d_zz, d_xy, d_xz, d_yz, mprod. rewrite <- !msum_plus.
  split; [apply msum_ext; intros; ring|]. split; [apply msum_ext; intros; ring|]. split; [apply msum_ext; intros; ring|]. auto.
Qed.
(** the numbers of [p] are those of the distribution [D] *)
Definition describes (p : mass_props) (D : masses) : Prop :=
  mp_mass p = d_mass D /\ d_first D = vscale (d_mass D) (mp_c p) /\ inertia_matrix p = d_tensor D.
Theorem C62_parallel_axis p D : describes p D -> let '(r, pb) := translate_to_body p in let D' := shifted (mp_c p) D in
  r = vopp (mp_c p) /\ mp_mass pb = d_mass D' /\ mp_c pb = vzero /\ d_first D' = vzero /\
  mp_xx pb = d_xx D' /\ mp_yy pb = d_yy D' /\ mp_zz pb = d_zz D' /\
  abs_up_to_clamp (d_xy D') (mp_xy pb) /\ abs_up_to_clamp (d_xz D') (mp_xz pb) /\ abs_up_to_clamp (d_yz D') (mp_yz pb).
Proof.
  intros (Hm & Hc & HT). unfold translate_to_body. cbv zeta. cbn [mp_mass mp_c mp_xx mp_yy mp_zz mp_xy mp_xz mp_yz].
  assert (FX : mlin vx D = d_mass D * vx (mp_c p)) by (apply (f_equal vx) in Hc; exact Hc).
  assert (FY : mlin vy D = d_mass D * vy (mp_c p)) by (apply (f_equal vy) in Hc; exact Hc).
  assert (FZ : mlin vz D = d_mass D * vz (mp_c p)) by (apply (f_equal vz) in Hc; exact Hc).
  unfold inertia_matrix, d_tensor in HT. injection HT; intros Ezz _ _ Eyz Eyy _ Exz Exy Exx. rewrite Hm.
  destruct (d_forms D) as (A1 & A2 & A3 & A4 & A5 & A6). destruct (d_forms (shifted (mp_c p) D)) as (B1 & B2 & B3 & B4 & B5 & B6).
  rewrite Ezz, Eyz, Eyy, Exz, Exy, Exx, A1, A2, A3, A4, A5, A6, B1, B2, B3, B4, B5, B6.
  set (c := mp_c p) in *.
  rewrite !shift_prod by (intros; reflexivity). rewrite FX, FY, FZ.
  split; [reflexivity|]. split. { unfold d_mass, shifted. rewrite (msum_map (fun p => vsub p c)). reflexivity. }
  split; [reflexivity|]. split.
  { change (d_first (shifted c D)) with (mkV (mlin vx (shifted c D)) (mlin vy (shifted c D)) (mlin vz (shifted c D))). rewrite !shift_lin by (intros; reflexivity). rewrite FX, FY, FZ. unfold vzero. f_equal; ring. }
  split; [ring|]. split; [ring|]. split; [ring|].
  split; [|split]; match goal with |- abs_up_to_clamp ?x (clamp_abs ?y) => replace y with x by ring; apply clamp_abs_spec end.
Qed.
(** two unit masses at (1,0,0) and (3,0,0) *)
Definition two_masses : masses := [(1, mkV 1 0 0); (1, mkV 3 2 0)].
Example C62_nonvacuous : describes (mkProps 2 (mkV 2 1 0) 4 10 14 (-6) 0 0) two_masses.
Proof.
  unfold describes, two_masses, d_mass, d_first, d_tensor, d_xx, d_yy, d_zz, d_xy, d_xz, d_yz, msum, inertia_matrix, vscale; cbn.
  split; [ring|]. split; f_equal; ring.
Qed.
Print Assumptions C62_parallel_axis.

(** * C80 the body frame diagonalises the inertia *)
Lemma rotate_tensor Q D : is_rotation Q -> d_first (map (fun d => (fst d, mvec (mT Q) (snd d))) D) = mvec (mT Q) (d_first D) /\
  d_tensor (map (fun d => (fst d, mvec (mT Q) (snd d))) D) = mmul (mmul (mT Q) (d_tensor D)) Q.
Proof.
  intros [HQ HD]. split.
  - induction D as [|[m x] D IH]. { unfold d_first, msum; cbn. vring. }
    replace (d_first ((m, x) :: D)) with (vadd (vscale m x) (d_first D)) by (unfold d_first, msum, vadd, vscale; cbn; reflexivity).
    cbn [map fst snd]. replace (d_first ((m, mvec (mT Q) x) :: map (fun d => (fst d, mvec (mT Q) (snd d))) D)) with (vadd (vscale m (mvec (mT Q) x)) (d_first (map (fun d => (fst d, mvec (mT Q) (snd d))) D))) by (unfold d_first, msum, vadd, vscale; cbn; reflexivity).
    rewrite IH. generalize (d_first D). vring.
  - induction D as [|[m x] D IH].
    { unfold d_tensor, d_xx, d_yy, d_zz, d_xy, d_xz, d_yz, msum; cbn. vring. }
    set (pt := fun (m : R) (x : vec3) => mkM (m * (vy x * vy x + vz x * vz x)) (- (m * (vx x * vy x))) (- (m * (vx x * vz x))) (- (m * (vx x * vy x))) (m * (vx x * vx x + vz x * vz x)) (- (m * (vy x * vz x))) (- (m * (vx x * vz x))) (- (m * (vy x * vz x))) (m * (vx x * vx x + vy x * vy x))).
    assert (AD : forall m x D, d_tensor ((m, x) :: D) = MassProofs2.madd (pt m x) (d_tensor D)).
    { intros. unfold d_tensor, d_xx, d_yy, d_zz, d_xy, d_xz, d_yz, msum, MassProofs2.madd, pt; cbn. f_equal; ring. }
    cbn [map fst snd]. rewrite !AD, IH, MassProofs2.madd_conj. f_equal. exact (MassProofs2.point_tensor Q m x (conj HQ HD)).
Qed.
Lemma vopp_vopp v : vopp (vopp v) = v. Proof. vring. Qed.
Lemma mvec_zero M : mvec M vzero = vzero. Proof. vring. Qed.
Lemma abs_not_tiny x y : not_tiny x -> abs_up_to_clamp x y -> y = x.
Proof. intros [H|H] [[A ->]|[A ->]]; auto; lra. Qed.
(** np.linalg.eig on a symmetric matrix with three different eigenvalues yields an orthonormal basis: its promise
    (unit eigenvectors) is enough there.  With repeated eigenvalues it promises nothing of the kind. *)
Theorem C80_distinct_eigenvalues A d E : mT A = A -> eigen_pairs A (d, E) -> vx d <> vy d -> vx d <> vz d -> vy d <> vz d ->
  eigen_basis A (d, E).
Proof. apply unit_eig_orth. Qed.
(** The body frame of a mass distribution: origin in the centre of mass, principal axes, moments in descending order. *)
Theorem C80_body_frame eig p D : describes p D ->
  let pb := snd (translate_to_body p) in eigen_basis (inertia_matrix pb) (eig (inertia_matrix pb)) ->
  let C := shifted (mp_c p) D in not_tiny (d_xy C) -> not_tiny (d_xz C) -> not_tiny (d_yz C) ->
  exists q I, xform_model_2_body_space eig p = Some (mp_c p, q, d_mass D, I) /\ is_unit q /\ vz I <= vy I <= vx I /\
    let D' := seen_from (mp_c p) (umat q) D in d_first D' = vzero /\ d_tensor D' = mdiag I.
Proof.
  intros HD pb HE C N1 N2 N3. pose proof (C62_parallel_axis p D HD) as HP. unfold xform_model_2_body_space. unfold pb in HE.
  destruct (translate_to_body p) as [r pb'] eqn:ET. cbn [snd] in HE. cbv zeta in HP. destruct HP as (Hr & Hm & Hc & Hf & Hxx & Hyy & Hzz & Hxy & Hxz & Hyz).
  destruct (rotate_to_model_spec eig pb' HE) as (q & I & -> & HQ & HO & HI). exists q, I. cbn [fst snd]. split.
  { rewrite Hr. destruct HD as (-> & _). rewrite vopp_vopp. reflexivity. }
  split; auto. split; auto. cbv zeta. destruct (umat_rot q HQ) as [RQ RQ'].
  assert (ES : seen_from (mp_c p) (umat q) D = map (fun d => (fst d, mvec (mT (umat q)) (snd d))) C).
  { unfold seen_from, C, shifted. rewrite map_map. reflexivity. }
  rewrite ES. destruct (rotate_tensor (umat q) C RQ) as [R1 R2]. rewrite R1, R2. unfold C in *. rewrite Hf. split; [apply mvec_zero|].
  assert (EJ : d_tensor (shifted (mp_c p) D) = inertia_matrix pb').
  { unfold d_tensor, inertia_matrix. rewrite Hxx, Hyy, Hzz, (abs_not_tiny _ _ N1 Hxy), (abs_not_tiny _ _ N2 Hxz), (abs_not_tiny _ _ N3 Hyz). reflexivity. }
  rewrite EJ, mmul_assoc, HI, <- mmul_assoc, RQ'. apply mmul_id_l.
Qed.
Definition axes_masses : masses := [(1, mkV 3 0 0); (1, mkV (-1) 0 0); (1, mkV 1 1 0); (1, mkV 1 (-1) 0)].
Definition diag_eig (A : mat3) : vec3 * mat3 := (mkV (m00 A) (m11 A) (m22 A), mid).
Example C80_nonvacuous : let p := mkProps 4 (mkV 1 0 0) 2 12 14 0 0 0 in describes p axes_masses /\
  (let pb := snd (translate_to_body p) in eigen_basis (inertia_matrix pb) (diag_eig (inertia_matrix pb))) /\
  (let C := shifted (mp_c p) axes_masses in not_tiny (d_xy C) /\ not_tiny (d_xz C) /\ not_tiny (d_yz C)).
Proof.
  cbv zeta. split.
  { unfold describes, axes_masses, d_mass, d_first, d_tensor, d_xx, d_yy, d_zz, d_xy, d_xz, d_yz, msum, inertia_matrix, vscale; cbn. split; [ring|]. split; f_equal; ring. }
  assert (E : forall x, x = 0 -> clamp_abs x = 0). { intros x ->. unfold clamp_abs. destruct Rltb; reflexivity. }
  split.
  - unfold translate_to_body, inertia_matrix, eigen_basis, diag_eig; cbn. rewrite !E by ring. vunf. split; f_equal; ring.
  - unfold shifted, axes_masses, not_tiny, d_xy, d_xz, d_yz, msum; cbn. split; [|split]; left; ring.
Qed.
Print Assumptions C80_distinct_eigenvalues. Print Assumptions C80_body_frame.

(** * C81 create_shape centres and aligns the mesh *)
Lemma q_conj_unit q : is_unit q -> is_unit (q_conj q).
Proof. destruct q. unfold is_unit, q_conj. vunf. lra. Qed.
Lemma umat_conj q : umat (q_conj q) = mT (umat q).
Proof. destruct q as [s x y z]. unfold umat, q_conj. cbn [qs qx qy qz]. vunf. f_equal; ring. Qed.
Lemma to_body_frame_map r q V : is_unit q -> to_body_frame r q V = map (mvec (mT (umat q))) (map (vadd (vopp r)) V).
Proof.
  intros HQ. unfold to_body_frame. rewrite q_rotate_array_map, !map_map. apply map_ext. intros v.
  rewrite <- umat_rotate by (apply q_conj_unit; auto). rewrite umat_conj. f_equal. vring.
Qed.
(** nothing is lost to the clamps *)
Definition all_counted (V : list vec3) (T : list tri) : Prop :=
  1 / 10000000000 < volume V T /\
  (forall i, (i < 3)%nat -> not_tiny (first_moment V T i / volume V T)) /\
  (forall i j, (i < 3)%nat -> (j < 3)%nat -> (i <> j) -> not_tiny (second_moment V T i j) /\ 1 / 10000000000 < second_moment V T i i + second_moment V T j j /\
     not_tiny (second_moment V T i j - first_moment V T i * first_moment V T j / volume V T)).
Lemma not_tiny_opp x : not_tiny x -> not_tiny (- x).
Proof. intros [H|H]; [left; lra|right; rewrite Rabs_Ropp; auto]. Qed.
Lemma pos_counted x y : 1 / 10000000000 < x -> pos_up_to_clamp x y -> y = x.
Proof. intros H [[A ->]|[A ->]]; lra. Qed.
Theorem C81_create_shape eig V T p : indices_exist V T -> closed_mesh T -> proper_triangles V T -> all_counted V T ->
  compute_mass_properties V T 1 = Some p ->
  let pb := snd (translate_to_body p) in eigen_basis (inertia_matrix pb) (eig (inertia_matrix pb)) ->
  exists r q m I, xform_model_2_body_space eig p = Some (r, q, m, I) /\ is_unit q /\
    let V' := to_body_frame r q V in
    m = volume V' T /\ (forall i, (i < 3)%nat -> first_moment V' T i = 0) /\ mesh_tensor V' T = mdiag I /\ vz I <= vy I <= vx I /\
    map (fun x => vadd (q_rotate q x) r) V' = V.
Proof.
  intros HI HC HP (HV & HC1 & HC2) EP pb HE.
  destruct (C61_closed V T 1 HI HC HP) as [_ S]. destruct (S ltac:(lra)) as (p' & EP' & Pm & Pc & Pxx & Pyy & Pzz & Pxy & Pxz & Pyz). clear S.
  rewrite EP in EP'. injection EP'; intros <-. clear EP'. rewrite !Rmult_1_l in *. assert (Hop : forall x, -1 * x = - x) by (intros; ring). rewrite !Hop in *. clear Hop.
  destruct (HC2 0%nat 1%nat ltac:(lia) ltac:(lia) ltac:(lia)) as (X01 & Y01 & Z01).
  destruct (HC2 0%nat 2%nat ltac:(lia) ltac:(lia) ltac:(lia)) as (X02 & Y02 & Z02).
  destruct (HC2 1%nat 2%nat ltac:(lia) ltac:(lia) ltac:(lia)) as (X12 & Y12 & Z12).
  apply pos_counted in Pm; [|lra]. apply pos_counted in Pxx; [|lra]. apply pos_counted in Pyy; [|lra]. apply pos_counted in Pzz; [|lra].
  apply abs_not_tiny in Pxy; [|apply not_tiny_opp; auto]. apply abs_not_tiny in Pxz; [|apply not_tiny_opp; auto]. apply abs_not_tiny in Pyz; [|apply not_tiny_opp; auto].
  assert (Pc' : forall i, (i < 3)%nat -> comp (mp_c p) i = first_moment V T i / volume V T) by (intros i Hi; apply abs_not_tiny; auto). clear Pc.
  set (V1 := map (vadd (vopp (mp_c p))) V).
  assert (CO : forall i, comp (vopp (mp_c p)) i = - comp (mp_c p) i) by (intros [|[|i]]; reflexivity).
  assert (F1 : forall i, (i < 3)%nat -> first_moment V1 T i = 0). { intros i Hi. unfold V1. rewrite shift_first, CO, Pc' by auto. field. lra. }
  assert (S1 : forall i j, (i < 3)%nat -> (j < 3)%nat -> second_moment V1 T i j = second_moment V T i j - first_moment V T i * first_moment V T j / volume V T).
  { intros i j Hi Hj. unfold V1. rewrite shift_second, !CO, !Pc' by auto. field. lra. }
  unfold xform_model_2_body_space. unfold pb in HE. destruct (translate_to_body p) as [r pb'] eqn:ET. cbn [snd] in HE.
  assert (EJ : inertia_matrix pb' = mesh_tensor V1 T /\ r = vopp (mp_c p)).
  { unfold translate_to_body in ET. injection ET; intros <- <-. split; [|reflexivity]. unfold inertia_matrix, mesh_tensor. cbn [mp_xx mp_yy mp_zz mp_xy mp_xz mp_yz].
    rewrite !S1 by lia. rewrite Pxx, Pyy, Pzz, Pxy, Pxz, Pyz, Pm. pose proof (Pc' 0%nat ltac:(lia)) as Q0. pose proof (Pc' 1%nat ltac:(lia)) as Q1. pose proof (Pc' 2%nat ltac:(lia)) as Q2. cbn [comp] in Q0, Q1, Q2. rewrite Q0, Q1, Q2.
    assert (K : forall a f g, not_tiny (a - f * g / volume V T) -> clamp_abs (- a + volume V T * (- (f / volume V T) * - (g / volume V T))) = - (a - f * g / volume V T)).
    { intros a f g Hn. match goal with |- clamp_abs ?x = ?y => replace x with y by (field; lra) end. apply abs_not_tiny; [apply not_tiny_opp; auto|apply clamp_abs_spec]. }
    rewrite !K by auto. f_equal; field; lra. }
  destruct EJ as [EJ Er]. destruct (rotate_to_model_spec eig pb' HE) as (q & I & -> & HQ & HO & HIq). destruct (umat_rot q HQ) as [RQ RQ'].
  exists (vopp r), q, (mp_mass p), I. split; [reflexivity|]. split; auto. cbv zeta.
  assert (Er' : vopp r = mp_c p) by (rewrite Er; apply vopp_vopp). rewrite Er'. rewrite (to_body_frame_map (mp_c p) q V HQ). fold V1.
  pose proof (shift_indices (vadd (vopp (mp_c p))) V T HI) as HI1. fold V1 in HI1.
  split. { rewrite linear_volume, mdet_T, (proj2 RQ) by auto. unfold V1. rewrite shift_volume by auto. lra. }
  split. { intros i Hi. rewrite linear_first, !F1 by (auto; lia). ring. }
  split. { apply diagonal_S; auto. rewrite <- EJ. auto. }
  split; auto.
  rewrite !map_map. transitivity (map (fun x : vec3 => x) V); [|apply map_id]. unfold V1. rewrite map_map. apply map_ext. intros x. rewrite <- umat_rotate by auto.
  replace (mvec (umat q) (mvec (mT (umat q)) (vadd (vopp (mp_c p)) x))) with (mvec (mmul (umat q) (mT (umat q))) (vadd (vopp (mp_c p)) x)) by (generalize (umat q); vring).
  destruct RQ as [-> _]. vring.
Qed.
(** An octahedron with half axes 1, 2, 3 around (1, 0, 0) *)
Definition octV : list vec3 := [mkV 2 0 0; mkV 0 0 0; mkV 1 2 0; mkV 1 (-2) 0; mkV 1 0 3; mkV 1 0 (-3)].
Definition octT : list tri := [(0, 2, 4); (2, 1, 4); (1, 3, 4); (3, 0, 4); (2, 0, 5); (1, 2, 5); (3, 1, 5); (0, 3, 5)]%Z.
Lemma oct_vats : vat octV 0 = mkV 2 0 0 /\ vat octV 1 = mkV 0 0 0 /\ vat octV 2 = mkV 1 2 0 /\ vat octV 3 = mkV 1 (-2) 0 /\ vat octV 4 = mkV 1 0 3 /\ vat octV 5 = mkV 1 0 (-3).
Proof. repeat split. Qed.
Ltac oct_sum := unfold volume, first_moment, second_moment, mesh_sum, octT; cbn [fold_right];
  let E := fresh in destruct oct_vats as (-> & -> & -> & -> & -> & ->); unfold tet_volume, tet_first, tet_second, tet_det; cbn [comp]; vunf; field.
Lemma oct_values : volume octV octT = 8 /\ first_moment octV octT 0 = 8 /\ first_moment octV octT 1 = 0 /\ first_moment octV octT 2 = 0 /\
  second_moment octV octT 0 0 = 44/5 /\ second_moment octV octT 1 1 = 16/5 /\ second_moment octV octT 2 2 = 36/5 /\
  second_moment octV octT 0 1 = 0 /\ second_moment octV octT 0 2 = 0 /\ second_moment octV octT 1 2 = 0.
Proof. do 9 (split; [oct_sum|]). oct_sum. Qed.
Lemma clamp_pos_big x : 1 / 10000000000 < x -> clamp_pos x = x.
Proof. intros H. apply pos_counted; auto. apply clamp_pos_spec. Qed.
Lemma clamp_abs_zero x : x = 0 -> clamp_abs x = 0.
Proof. intros ->. unfold clamp_abs. destruct Rltb; reflexivity. Qed.
Example C81_nonvacuous : exists p, indices_exist octV octT /\ closed_mesh octT /\ proper_triangles octV octT /\ all_counted octV octT /\
  compute_mass_properties octV octT 1 = Some p /\
  let pb := snd (translate_to_body p) in eigen_basis (inertia_matrix pb) (diag_eig (inertia_matrix pb)).
Proof.
  destruct oct_values as (EV & F0 & F1 & F2 & S00 & S11 & S22 & S01 & S02 & S12).
  assert (HI : indices_exist octV octT). { intros i j k H. unfold octT in H. cbn in H. in4 H; injection H; intros; subst; cbn; repeat split; discriminate. }
  assert (HC : closed_mesh octT) by (apply closedb_ok; reflexivity).
  assert (HP : proper_triangles octV octT).
  { destruct oct_vats as (E0 & E1 & E2 & E3 & E4 & E5). intros i j k H Z. unfold octT in H. cbn in H. apply (f_equal vx) in Z.
    in4 H; injection H; intros; subst; rewrite ?E0, ?E1, ?E2, ?E3, ?E4, ?E5 in Z; vunf; lra. }
  destruct (C61_closed octV octT 1 HI HC HP) as [_ S]. destruct (S ltac:(lra)) as (p & EP & Pm & Pc & Pxx & Pyy & Pzz & Pxy & Pxz & Pyz).
  exists p. do 3 (split; [auto|]).
  assert (NZ : not_tiny 0) by (left; auto).
  split. { split; [lra|]. split.
    - intros i Hi. rewrite EV. destruct i as [|[|[|i]]]; [| | |lia]; rewrite ?F0, ?F1, ?F2; [right; rewrite Rabs_right; lra|left; lra|left; lra].
    - intros i j Hi Hj Hij. rewrite EV. destruct i as [|[|[|i]]]; [| | |lia]; destruct j as [|[|[|j]]]; try lia; rewrite ?(second_sym _ _ 1 0), ?(second_sym _ _ 2 0), ?(second_sym _ _ 2 1), ?F0, ?F1, ?F2, ?S00, ?S11, ?S22, ?S01, ?S02, ?S12; (split; [auto|]); (split; [lra|left; lra]). }
  split; auto. cbv zeta. rewrite EV, F0 || idtac.
  apply pos_counted in Pm; [|lra]. apply pos_counted in Pxx; [|lra]. apply pos_counted in Pyy; [|lra]. apply pos_counted in Pzz; [|lra].
  apply abs_not_tiny in Pxy; [|left; lra]. apply abs_not_tiny in Pxz; [|left; lra]. apply abs_not_tiny in Pyz; [|left; lra].
  pose proof (Pc 1%nat ltac:(lia)) as P1. apply abs_not_tiny in P1; [|left; rewrite F1; lra]. pose proof (Pc 2%nat ltac:(lia)) as P2. apply abs_not_tiny in P2; [|left; rewrite F2; lra].
  cbn [comp] in P1, P2. unfold translate_to_body. cbn [snd]. unfold inertia_matrix, eigen_basis, diag_eig. cbn [fst snd m00 m11 m22 mp_xx mp_yy mp_zz mp_xy mp_xz mp_yz].
  rewrite !(clamp_abs_zero (_ + _)) by (rewrite ?Pxy, ?Pxz, ?Pyz, ?P1, ?P2, ?S01, ?S02, ?S12, ?F1, ?F2; lra).
  vunf. split; f_equal; ring.
Qed.
Print Assumptions C81_create_shape.

(** * C82 tiny solids: a closed mesh of positive volume can get mass 0 *)
Definition tinyV : list vec3 := [mkV 0 0 0; mkV (1/10000) 0 0; mkV 0 (1/10000) 0; mkV 0 0 (1/10000)].
Theorem C82_positive_mass_refuted : exists V T p, indices_exist V T /\ closed_mesh T /\ proper_triangles V T /\ 0 < volume V T /\
  compute_mass_properties V T 1 = Some p /\ mp_mass p = 0.
Proof.
  assert (HI : indices_exist tinyV tetT). { intros i j k H. unfold tetT in H. cbn in H. in4 H; injection H; intros; subst; cbn; repeat split; discriminate. }
  assert (HC : closed_mesh tetT) by (apply closedb_ok; reflexivity).
  assert (VT : vat tinyV 0 = mkV 0 0 0 /\ vat tinyV 1 = mkV (1/10000) 0 0 /\ vat tinyV 2 = mkV 0 (1/10000) 0 /\ vat tinyV 3 = mkV 0 0 (1/10000)) by (repeat split).
  destruct VT as (E0 & E1 & E2 & E3).
  assert (HP : proper_triangles tinyV tetT).
  { intros i j k H Z. unfold tetT in H. cbn in H. apply (f_equal (fun v => vx v + vy v + vz v)) in Z. in4 H; injection H; intros; subst; rewrite ?E0, ?E1, ?E2, ?E3 in Z; vunf; lra. }
  assert (EV : volume tinyV tetT = 1 / 6000000000000). { unfold volume, mesh_sum, tetT. cbn [fold_right]. rewrite E0, E1, E2, E3. unfold tet_volume, tet_det. vunf. field. }
  destruct (C61_closed tinyV tetT 1 HI HC HP) as [_ S]. destruct (S ltac:(lra)) as (p & EP & Pm & _).
  exists tinyV, tetT, p. do 3 (split; [auto|]). split; [lra|]. split; auto. destruct Pm as [[? ?]|[? ?]]; lra.
Qed.
Print Assumptions C82_positive_mass_refuted.
