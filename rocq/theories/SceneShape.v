(** create_shape on the meshes of the scene builders: it returns, and what the shape then is. *)
From Verif Require Import Base QuatModel QuatProofs VecModel VecProofs BvhModel BvhSpec GridModel VolModel RigidTypes RigidSpec CollModel BaryModel MassModel MassSpec
  StepModel StepProofs StepProofs2 ReadySpec ReadyProofs ConSpec ApiModel ApiSpec ApiProofs RotProofs QuatMatProofs KdopProofs GridProofs MassProofs MassProofs2 Prop_Geometry Prop_Grid Prop_Step Prop_Mass Prop_Api Prop_Api2
  SurfModel SurfSpec SceneModel SceneSpec SceneMesh SceneProofs.
From Coq Require Import Permutation.
Open Scope R_scope.

Definition tiny : R := 1 / 10000000000.
(** a closed mesh around a positive volume whose covariance and inertia are diagonal *)
Definition good_stone (V : list vec3) (T : list tri) : Prop :=
  plain V T /\ NoDup V /\ (2 <= length V)%nat /\ closed_mesh T /\ proper_triangles V T /\ 0 < volume V T /\
  (exists d, covariance V = mdiag d) /\
  (forall i j, (i < 3)%nat -> (j < 3)%nat -> i <> j ->
     (second_moment V T i j = 0 /\ first_moment V T i * first_moment V T j = 0) \/
     (second_moment V T i j * volume V T = first_moment V T i * first_moment V T j /\ tiny < volume V T /\
      not_tiny (first_moment V T i / volume V T) /\ not_tiny (first_moment V T j / volume V T))).
Definition same_mesh (V : list vec3) (T : list tri) (V' : list vec3) (T' : list tri) : Prop :=
  Permutation V V' /\ plain V' T' /\ Permutation (corners V T) (corners V' T').
Lemma clamp_abs_0 x : x = 0 -> clamp_abs x = 0.
Proof. intros ->. unfold clamp_abs. destruct (Rltb _ _); reflexivity. Qed.
Lemma abs_clamp_0 x y : x = 0 -> abs_up_to_clamp x y -> y = 0.
Proof. intros -> [[_ ->]|[_ ->]]; reflexivity. Qed.
Lemma abs_clamp_prod x y x' y' : x * y = 0 -> abs_up_to_clamp x x' -> abs_up_to_clamp y y' -> x' * y' = 0.
Proof. intros H [[_ ->]|[_ ->]] [[_ ->]|[_ ->]]; lra. Qed.

(** the mass properties that the code computes for the reordered mesh *)
Lemma stone_mass V T V' T' : good_stone V T -> same_mesh V T V' T' -> exists p, compute_mass_properties V' T' 1 = Some p /\
  pos_up_to_clamp (volume V T) (mp_mass p) /\ (forall i, (i < 3)%nat -> abs_up_to_clamp (first_moment V T i / volume V T) (comp (mp_c p) i)) /\
  pos_up_to_clamp (second_moment V T 1 1 + second_moment V T 2 2) (mp_xx p) /\ pos_up_to_clamp (second_moment V T 0 0 + second_moment V T 2 2) (mp_yy p) /\
  pos_up_to_clamp (second_moment V T 0 0 + second_moment V T 1 1) (mp_zz p) /\
  clamp_abs (mp_xy p + mp_mass p * (- vx (mp_c p) * - vy (mp_c p))) = 0 /\ clamp_abs (mp_xz p + mp_mass p * (- vx (mp_c p) * - vz (mp_c p))) = 0 /\
  clamp_abs (mp_yz p + mp_mass p * (- vy (mp_c p) * - vz (mp_c p))) = 0.
Proof.
  intros (HP & ND & HL & HC & HT & HV & _ & HS) (PV & HP' & PC).
  pose proof (same_closed _ _ _ _ ND PV HP HP' PC HC) as HC'. pose proof (same_proper _ _ _ _ HP HP' PC HT) as HT'.
  destruct (C61_closed V' T' 1 (plain_exist _ _ HP') HC' HT') as [_ S].
  assert (EV : volume V' T' = volume V T) by (symmetry; apply same_sum; auto).
  assert (EF : forall i, first_moment V' T' i = first_moment V T i) by (intros; symmetry; apply same_sum; auto).
  assert (ES : forall i j, second_moment V' T' i j = second_moment V T i j) by (intros; symmetry; apply same_sum; auto).
  destruct S as (p & EP & Pm & Pc & Pxx & Pyy & Pzz & Pxy & Pxz & Pyz); [lra|].
  rewrite !EV, ?ES, ?Rmult_1_l in *. exists p. split; [auto|]. split; [auto|].
  assert (Pc' : forall i, (i < 3)%nat -> abs_up_to_clamp (first_moment V T i / volume V T) (comp (mp_c p) i)) by (intros i Hi; rewrite <- EF; auto).
  split; [auto|]. do 3 (split; [auto|]).
  assert (G : forall i j x, (i < 3)%nat -> (j < 3)%nat -> i <> j -> abs_up_to_clamp (- (1) * second_moment V T i j) x ->
    clamp_abs (x + mp_mass p * (- comp (mp_c p) i * - comp (mp_c p) j)) = 0).
  { intros i j x Hi Hj Hij HX. destruct (HS i j Hi Hj Hij) as [[H0 H1]|(H0 & H1 & H2 & H3)].
    - apply clamp_abs_0. rewrite H0 in HX. assert (X0 : x = 0) by (eapply abs_clamp_0; [|exact HX]; ring). rewrite X0.
      assert (E : comp (mp_c p) i * comp (mp_c p) j = 0).
      { eapply abs_clamp_prod; [|apply Pc'; auto|apply Pc'; auto]. replace (first_moment V T i / volume V T * (first_moment V T j / volume V T)) with (first_moment V T i * first_moment V T j / (volume V T * volume V T)) by (field; lra).
        rewrite H1. unfold Rdiv. ring. }
      replace (- comp (mp_c p) i * - comp (mp_c p) j) with (comp (mp_c p) i * comp (mp_c p) j) by ring. rewrite E. ring.
    - rewrite (abs_not_tiny _ _ H2 (Pc' i Hi)), (abs_not_tiny _ _ H3 (Pc' j Hj)).
      assert (EM : mp_mass p = volume V T). { destruct Pm as [[_ Pm]|[Pm _]]; [exact Pm|unfold tiny in H1; lra]. }
      assert (E : mp_mass p * (- (first_moment V T i / volume V T) * - (first_moment V T j / volume V T)) = second_moment V T i j).
      { rewrite EM. transitivity (first_moment V T i * first_moment V T j / volume V T); [field; lra|]. rewrite <- H0. field. lra. }
      rewrite E. destruct HX as [[_ ->]|[HX ->]]; [apply clamp_abs_0; ring|].
      destruct (clamp_abs_spec (0 + second_moment V T i j)) as [[Z _]|[_ Z]]; [|exact Z]. exfalso.
      replace (- (1) * second_moment V T i j) with (- second_moment V T i j) in HX by ring. rewrite Rabs_Ropp in HX. rewrite Rplus_0_l in Z. lra. }
  split; [apply (G 0%nat 1%nat); auto; lia|]. split; [apply (G 0%nat 2%nat); auto; lia|apply (G 1%nat 2%nat); auto; lia].
Qed.
(** the inertia tensor about the centre of mass is diagonal *)
Lemma stone_inertia p : clamp_abs (mp_xy p + mp_mass p * (- vx (mp_c p) * - vy (mp_c p))) = 0 -> clamp_abs (mp_xz p + mp_mass p * (- vx (mp_c p) * - vz (mp_c p))) = 0 ->
  clamp_abs (mp_yz p + mp_mass p * (- vy (mp_c p) * - vz (mp_c p))) = 0 ->
  inertia_matrix (snd (translate_to_body p)) =
  mdiag (mkV (mp_xx p - mp_mass p * (vy (mp_c p) * vy (mp_c p) + vz (mp_c p) * vz (mp_c p)))
             (mp_yy p - mp_mass p * (vx (mp_c p) * vx (mp_c p) + vz (mp_c p) * vz (mp_c p)))
             (mp_zz p - mp_mass p * (vx (mp_c p) * vx (mp_c p) + vy (mp_c p) * vy (mp_c p)))).
Proof.
  intros E1 E2 E3. unfold translate_to_body, inertia_matrix, mdiag; cbn [snd mp_xx mp_yy mp_zz mp_xy mp_xz mp_yz vx vy vz]. rewrite E1, E2, E3.
  f_equal; ring.
Qed.
Lemma stone_eig eig V T V' T' : eig_diagonal eig -> good_stone V T -> same_mesh V T V' T' -> eig_good eig V' T'.
Proof.
  intros HE HG HS p EP. destruct (stone_mass V T V' T' HG HS) as (p' & EP' & _ & _ & _ & _ & _ & E1 & E2 & E3). assert (p' = p) by congruence. subst p'. cbv zeta.
  rewrite stone_inertia by auto. apply HE.
Qed.
(** eigenvalues of a positive diagonal matrix are positive *)
Lemma diag_positive d l E : 0 < vx d -> 0 < vy d -> 0 < vz d -> mmul (mdiag d) E = mmul E (mdiag l) -> mmul (mT E) E = mid -> 0 < vx l /\ 0 < vy l /\ 0 < vz l.
Proof.
  intros D0 D1 D2 H O. destruct d as [d0 d1 d2], l as [l0 l1 l2], E as [a b c u v w x y z]. unfold mmul, mT, mdiag, mid in *. cbn in *.
  injection H as A0 A1 A2 B0 B1 B2 C0 C1 C2. injection O as O0 _ _ _ O1 _ _ _ O2.
  assert (G : forall p q r l, d0 * p = p * l -> d1 * q = q * l -> d2 * r = r * l -> p * p + q * q + r * r = 1 -> 0 < l).
  { intros p q r l P Q S U. assert (EL : l = d0 * (p * p) + d1 * (q * q) + d2 * (r * r)). { transitivity (l * (p * p + q * q + r * r)); [rewrite U; ring|]. transitivity (p * (p * l) + q * (q * l) + r * (r * l)); [ring|]. rewrite <- P, <- Q, <- S. ring. }
    rewrite EL. pose proof (Rle_0_sqr p) as N0. pose proof (Rle_0_sqr q) as N1. pose proof (Rle_0_sqr r) as N2. unfold Rsqr in *.
    destruct (Rlt_dec 0 (p * p)); [|destruct (Rlt_dec 0 (q * q)); [|assert (0 < r * r) by lra]];
      pose proof (Rmult_le_pos d0 (p * p) ltac:(lra) N0); pose proof (Rmult_le_pos d1 (q * q) ltac:(lra) N1); pose proof (Rmult_le_pos d2 (r * r) ltac:(lra) N2).
    - pose proof (Rmult_lt_0_compat d0 (p * p) D0 r0). lra. - pose proof (Rmult_lt_0_compat d1 (q * q) D1 r0). lra. - pose proof (Rmult_lt_0_compat d2 (r * r) D2 H). lra. }
  split; [|split].
  - apply (G a u x); lra. - apply (G b v y); lra. - apply (G c w z); lra.
Qed.

(** ** the centre of mass of a mesh that is star-shaped about one of its vertices is not outside *)
Definition star (V : list vec3) (T : list tri) (c : vec3) : Prop :=
  forall i j k, In (i, j, k) T -> 0 <= tet_det (vsub (vat V i) c) (vsub (vat V j) c) (vsub (vat V k) c).
Lemma mesh_sum_le f g V T : (forall i j k, In (i, j, k) T -> f (vat V i) (vat V j) (vat V k) <= g (vat V i) (vat V j) (vat V k)) -> mesh_sum f V T <= mesh_sum g V T.
Proof.
  intros H. unfold mesh_sum. induction T as [|[[i j] k] T IH]; cbn; [lra|]. pose proof (H i j k (or_introl eq_refl)). assert (forall i j k, In (i, j, k) T -> f (vat V i) (vat V j) (vat V k) <= g (vat V i) (vat V j) (vat V k)) by (intros; apply H; right; auto).
  specialize (IH H1). lra.
Qed.
Lemma dot_comp u p : vdot u p = vx u * comp p 0 + vy u * comp p 1 + vz u * comp p 2.
Proof. reflexivity. Qed.
Lemma centre_inside V T c u : plain V T -> closed_mesh T -> In c V -> star V T c -> 0 < volume V T ->
  exists v, In v V /\ vdot u v <= vdot u (mkV (first_moment V T 0 / volume V T) (first_moment V T 1 / volume V T) (first_moment V T 2 / volume V T)).
Proof.
  intros HP HC Hc HS HV. set (m := mkV _ _ _). 
  destruct (Exists_dec (fun v => vdot u v <= vdot u m) V (fun v => Rle_dec _ _)) as [HE|HN].
  { apply Exists_exists in HE. exact HE. }
  exfalso. assert (ALL : forall v, In v V -> vdot u m < vdot u v). { intros v Hv. apply Rnot_le_lt. intros H. apply HN. apply Exists_exists. eauto. }
  pose proof (plain_exist _ _ HP) as HI. set (V1 := map (vadd (vopp c)) V).
  assert (HI1 : indices_exist V1 T) by (apply shift_indices; auto).
  assert (EV : volume V1 T = volume V T) by (apply shift_volume; auto).
  assert (EF : forall i, (i < 3)%nat -> first_moment V1 T i = first_moment V T i - comp c i * volume V T). { intros i Hi. unfold V1. rewrite shift_first by auto. destruct i as [|[|[|i]]]; cbn; lra. }
  set (k := vdot u m - vdot u c). assert (Hk : k < 0) by (pose proof (ALL c Hc); unfold k; lra).
  assert (EQ : vx u * first_moment V1 T 0 + vy u * first_moment V1 T 1 + vz u * first_moment V1 T 2 = k * volume V T).
  { rewrite !EF by lia. unfold k, m, vdot; cbn [vx vy vz comp]. field. lra. }
  assert (EQ2 : vx u * first_moment V1 T 0 + vy u * first_moment V1 T 1 + vz u * first_moment V1 T 2 = mesh_sum (fun a b d => tet_det a b d / 24 * (vdot u a + vdot u b + vdot u d)) V1 T).
  { unfold first_moment. rewrite <- !mesh_sum_scale, <- !mesh_sum_plus. apply mesh_sum_ext. intros a b d. unfold tet_first. rewrite !dot_comp. ring. }
  assert (LE : mesh_sum (fun a b d => (3 * k / 4) * tet_volume a b d) V1 T <= mesh_sum (fun a b d => tet_det a b d / 24 * (vdot u a + vdot u b + vdot u d)) V1 T).
  { apply mesh_sum_le. intros i j l Hi. destruct (HI i j l Hi) as (A & B & C). unfold V1. rewrite !py_get_map_vat by auto.
    pose proof (HS i j l Hi) as D. assert (SH : forall x, vadd (vopp c) x = vsub x c) by (intros [x0 x1 x2]; destruct c; unfold vadd, vopp, vsub; cbn; f_equal; ring). rewrite !SH. 
    assert (K : forall x, In (vat V x) V -> k <= vdot u (vsub (vat V x) c)). { intros x Hx. pose proof (ALL _ Hx). unfold k. replace (vdot u (vsub (vat V x) c)) with (vdot u (vat V x) - vdot u c) by (unfold vdot, vsub; cbn; ring). lra. }
    destruct (HP i j l Hi) as (R1 & R2 & R3). pose proof (K i (nth_error_In _ _ (vat_nth V i R1))) as K1. pose proof (K j (nth_error_In _ _ (vat_nth V j R2))) as K2. pose proof (K l (nth_error_In _ _ (vat_nth V l R3))) as K3.
    unfold tet_volume. set (D0 := tet_det _ _ _) in *. match goal with |- _ <= _ * ?s => assert (3 * k <= s) by lra; set (s0 := s) in * end.
    pose proof (Rmult_le_compat_l (D0 / 24) (3 * k) s0 ltac:(lra) H). lra. }
  rewrite mesh_sum_scale in LE. fold (volume V1 T) in LE. rewrite EV, <- EQ2, EQ in LE. assert (0 < (- k) * volume V T) by (apply Rmult_lt_0_compat; lra). lra.
Qed.

(** ** create_mesh followed by create_shape *)
Definition counted_stone (V : list vec3) (T : list tri) : Prop :=
  tiny < volume V T /\ (forall i, (i < 3)%nat -> not_tiny (first_moment V T i / volume V T)) /\
  (forall i j, (i < 3)%nat -> (j < 3)%nat -> i <> j -> tiny < second_moment V T i i + second_moment V T j j /\
     0 < second_moment V T i i + second_moment V T j j - (first_moment V T i * first_moment V T i + first_moment V T j * first_moment V T j) / volume V T) /\
  exists c, In c V /\ star V T c.
Definition is_shape_of (s : shape) (V : list vec3) (T : list tri) : Prop :=
  is_unit (sh_q s) /\ (pos_up_to_clamp (volume V T) (sh_mass s) /\ forall i, (i < 3)%nat -> abs_up_to_clamp (first_moment V T i / volume V T) (comp (sh_r s) i)) /\
  (forall b, Permutation (map (model_to_world b s) V) (map (body_to_world b) (sh_V s)) /\
     Permutation (corners (map (model_to_world b s) V) T) (corners (map (body_to_world b) (sh_V s)) (sh_T s))) /\
  (counted_stone V T -> corner_nonzero s /\ 0 < vx (sh_inertia s) /\ 0 < vy (sh_inertia s) /\ 0 < vz (sh_inertia s)).
Lemma corners_map f V T : corners (map f V) T = map (map (option_map f)) (corners V T).
Proof.
  unfold corners. rewrite !map_map. apply map_ext. intros [[i j] k]. cbn. 
  assert (G : forall i, py_get (map f V) i = option_map f (py_get V i)). { intros x. unfold py_get, py_idx. rewrite map_length. destruct (_ || _); [reflexivity|]. apply nth_error_map. }
  rewrite !G. reflexivity.
Qed.
Lemma pos_clamp_val x y : tiny < x -> pos_up_to_clamp x y -> y = x.
Proof. unfold tiny. intros H [[_ ->]|[H1 _]]; [auto|lra]. Qed.
Lemma make_shape_ok eig sd e sn V T : eig_diagonal eig -> reach eig sd sane_params e -> (2 <= p_resolution (e_params e))%Z -> find_shape e sn = None -> good_stone V T ->
  exists s, make_shape eig sd sn (V, T) e = Done (set_shapes e (e_shapes e ++ [s])) /\ reach eig sd sane_params (set_shapes e (e_shapes e ++ [s])) /\
    sh_name s = sn /\ is_shape_of s V T.
Proof.
  intros HE HR HN HF HG. pose proof HG as (HP & ND & HL & HC & HT & HV & (d & HD) & _).
  destruct (create_mesh_ok eig V T HP HL) as (V' & T' & EM & PV & HP' & PC). { rewrite HD. apply HE. }
  assert (SM : same_mesh V T V' T') by (split; [exact PV|split; [exact HP'|exact PC]]).
  pose proof (stone_eig eig V T V' T' HE HG SM) as HEG.
  destruct (stone_mass V T V' T' HG SM) as (p & EP & Pm & Pc & Pxx & Pyy & Pzz & E1 & E2 & E3).
  pose proof (HEG p EP) as HB. cbv zeta in HB. pose proof (stone_inertia p E1 E2 E3) as EI.
  destruct (translate_to_body p) as [rt pb] eqn:ET. cbn [snd] in HB, EI. 
  destruct (rotate_to_model_spec eig pb HB) as (q & J & ERM & HU & _ & HJ).
  assert (EX : xform_model_2_body_space eig p = Some (vopp rt, q, mp_mass p, J)). { unfold xform_model_2_body_space. rewrite ET, ERM. reflexivity. }
  assert (Ert : vopp rt = mp_c p). { unfold translate_to_body in ET. injection ET as <- _. destruct (mp_c p). unfold vopp; cbn. f_equal; ring. }
  unfold make_shape. cbn [fst snd]. rewrite EM.
  set (V2 := to_body_frame (vopp rt) q V').
  assert (NE : V2 <> []). { unfold V2, to_body_frame. rewrite q_rotate_array_map, map_map. intros Z. apply map_eq_nil in Z. subst V'. apply Permutation_sym, Permutation_nil in PV. subst V. cbn in HL. lia. }
  destruct (reach_made _ _ _ HR) as ((_ & _ & HEnv) & _).
  assert (exists bd, shape_boundary V2 (e_params e) = Some bd /\ 0 < bd) as (bd & Eb & Hb).
  { unfold shape_boundary. destruct V2 as [|a t] eqn:E; [congruence|]. destruct (np_min0 (a :: t)) as [lo|] eqn:El; [|discriminate]. destruct (np_max0 (a :: t)) as [hi|] eqn:Eh; [|discriminate].
    eexists; split; [reflexivity|]. eapply Rlt_le_trans; [|apply Rmax_r]. lra. }
  destruct (C69_signed_distance_total (sd V2 T') V2 _ _ _ bd (Rlt_le _ _ Hb) NE HN HN HN) as [g Eg].
  assert (EC : fst (create_shape eig sd e sn V' T' true) = Done (set_shapes e (e_shapes e ++ [mkShape sn V2 T' g (mp_mass p) J (vopp rt) q]))).
  { unfold create_shape. rewrite HF, EP, EX. fold V2. rewrite Eb, Eg. reflexivity. }
  rewrite EC. set (s := mkShape sn V2 T' g (mp_mass p) J (vopp rt) q) in *. exists s. split; [reflexivity|].
  split; [apply (reach_done _ _ _ (CreateShape sn V' T' true) e); [auto|exact HEG|exact EC]|]. split; [reflexivity|].
  split; [exact HU|]. split; [split; [exact Pm|cbn [sh_r s]; rewrite Ert; exact Pc]|].
  assert (EW : forall b, map (body_to_world b) (sh_V s) = map (model_to_world b s) V').
  { intros b. unfold s, V2, to_body_frame. cbn [sh_V]. rewrite q_rotate_array_map, !map_map. apply map_ext. intros v. reflexivity. }
  split.
  { intros b. rewrite EW. split; [apply Permutation_map; exact PV|]. unfold s at 3. cbn [sh_T]. rewrite !corners_map. apply Permutation_map. exact PC. }
  intros (CV & CF & CS & c0 & Hc0 & Hst). 
  assert (EM' : mp_mass p = volume V T) by (apply pos_clamp_val; auto).
  assert (Ec : forall i, (i < 3)%nat -> comp (mp_c p) i = first_moment V T i / volume V T) by (intros i Hi; apply abs_not_tiny; auto).
  pose proof (Ec 0%nat ltac:(lia)) as Ec0. pose proof (Ec 1%nat ltac:(lia)) as Ec1. pose proof (Ec 2%nat ltac:(lia)) as Ec2. cbn [comp] in Ec0, Ec1, Ec2.
  split.
  { destruct (C69_signed_distance_grid _ _ _ _ _ _ _ Eg) as (_ & _ & _ & _ & _ & (bx & Ea & Emin & _) & _ & _). destruct (create_bounds _ _ Ea) as [B _].
    assert (NEG : forall u, exists v, In v V2 /\ vdot u v <= 0).
    { intros u. destruct (centre_inside V T c0 (q_rotate q u) HP HC Hc0 Hst HV) as (v & Hv & Lv).
      exists (q_rotate (q_conj q) (vadd v (vopp (vopp rt)))). split.
      - unfold V2, to_body_frame. rewrite q_rotate_array_map, map_map. apply (in_map (fun x => q_rotate (q_conj q) (vadd x (vopp (vopp rt))))). apply (Permutation_in _ PV). exact Hv.
      - rewrite Ert. rewrite <- Ec0, <- Ec1, <- Ec2 in Lv. replace (mkV (vx (mp_c p)) (vy (mp_c p)) (vz (mp_c p))) with (mp_c p) in Lv by (destruct (mp_c p); reflexivity).
        replace (vdot u (q_rotate (q_conj q) (vadd v (vopp (mp_c p))))) with (vdot (q_rotate q u) (vadd v (vopp (mp_c p)))).
        + replace (vdot (q_rotate q u) (vadd v (vopp (mp_c p)))) with (vdot (q_rotate q u) v - vdot (q_rotate q u) (mp_c p)) by (unfold vdot, vadd, vopp; cbn; ring). lra.
        + set (z := vadd v (vopp (mp_c p))). rewrite <- (q_rotate_inv_r q z HU) at 1. pose proof (q_rotate_dot q u (q_rotate (q_conj q) z)) as QD. unfold is_unit in HU. rewrite QD, HU. ring. }
    destruct (NEG (mkV 1 0 0)) as (v0 & H0 & L0). destruct (NEG (mkV 0 1 0)) as (v1 & H1 & L1). destruct (NEG (mkV 0 0 1)) as (v2 & H2 & L2).
    pose proof (B _ H0) as B0. pose proof (B _ H1) as B1. pose proof (B _ H2) as B2. unfold vdot in L0, L1, L2. cbn in L0, L1, L2.
    unfold corner_nonzero. cbn [sh_grid s]. rewrite Emin. unfold grow_box, vsubc; cbn. unfold in_box, v_le in *. destruct (bx_min bx) as [x0 x1 x2]. cbn in *.
    destruct B0 as ((? & ? & ?) & _), B1 as ((? & ? & ?) & _), B2 as ((? & ? & ?) & _). repeat split; lra. }
  cbn [sh_inertia s]. rewrite EI in HJ. destruct (umat_rot q HU) as [RQ RQ'].
  destruct (CS 0%nat 1%nat ltac:(lia) ltac:(lia) ltac:(lia)) as [S01 J01]. destruct (CS 0%nat 2%nat ltac:(lia) ltac:(lia) ltac:(lia)) as [S02 J02]. destruct (CS 1%nat 2%nat ltac:(lia) ltac:(lia) ltac:(lia)) as [S12 J12].
  apply pos_clamp_val in Pxx; [|lra]. apply pos_clamp_val in Pyy; [|lra]. apply pos_clamp_val in Pzz; [|lra].
  assert (AX : forall S f g, S - volume V T * (f / volume V T * (f / volume V T) + g / volume V T * (g / volume V T)) = S - (f * f + g * g) / volume V T) by (intros; field; lra).
  apply (diag_positive _ _ _) in HJ; auto; cbn [vx vy vz]; rewrite ?Pxx, ?Pyy, ?Pzz, ?EM', ?Ec0, ?Ec1, ?Ec2, ?AX; lra.
Qed.
