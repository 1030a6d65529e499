(** C137: create_mesh only renumbers, and the axis it sorts along. *)
From Verif Require Import Base VecModel VecProofs BvhModel VolModel RigidTypes MassModel MassSpec MassProofs MassProofs2 SurfModel SurfSpec SceneModel SceneSpec SceneMesh.
From Coq Require Import Permutation.
Open Scope R_scope.

(** whatever the axis: the same vertices, and the same oriented triangles *)
Theorem C137_create_mesh eig V T : plain V T -> (2 <= length V)%nat -> eigen_basis (covariance V) (eig (covariance V)) ->
  exists V' T', create_mesh eig V T = Some (V', T') /\ Permutation V V' /\ plain V' T' /\ Permutation (corners V T) (corners V' T').
Proof. apply create_mesh_ok. Qed.
Lemma sum_components : forall C i, fold_right (fun p s => comp p i + s) 0 C = comp (fold_right vadd vzero C) i.
Proof. induction C as [|p C IH]; intros i; [destruct i as [|[|i]]; reflexivity|]. cbn [fold_right]. rewrite IH. destruct i as [|[|i]]; reflexivity. Qed.
Lemma centred_sum P m : fold_right vadd vzero (map (fun p => vsub p m) P) = vsub (fold_right vadd vzero P) (vscale (INR (length P)) m).
Proof.
  induction P as [|p P IH]; [destruct m; unfold vsub, vscale, vzero; cbn; f_equal; ring|]. cbn [map fold_right length]. rewrite IH, S_INR.
  generalize (fold_right vadd vzero P). intros [a b c]. destruct p, m. unfold vsub, vscale, vadd; cbn. f_equal; ring.
Qed.
Lemma centred_mean P : (0 < length P)%nat -> vmean (centred P) = vzero.
Proof.
  intros H. unfold vmean, centred. rewrite centred_sum, map_length. unfold vmean. assert (HN : INR (length P) <> 0) by (apply not_0_INR; lia).
  generalize dependent (INR (length P)). intros n HN. generalize (fold_right vadd vzero P). intros [a b c]. unfold vdiv, vsub, vscale, vzero; cbn. f_equal; field; auto.
Qed.
Lemma centred_twice P : (0 < length P)%nat -> centred (centred P) = centred P.
Proof.
  intros H. unfold centred at 1. rewrite centred_mean by auto. transitivity (map (fun x : vec3 => x) (centred P)); [|apply map_id]. apply map_ext. intros [a b c]. unfold vsub, vzero; cbn. f_equal; ring.
Qed.
(** the variance is the quadratic form of the covariance matrix *)
Lemma variance_form P u : (2 <= length P)%nat -> variance_along P u = vdot u (mvec (covariance P) u).
Proof.
  intros HL. unfold covariance. rewrite centred_twice by lia.
  assert (HN : INR (length P) - 1 <> 0). { apply le_INR in HL. cbn in HL. lra. }
  unfold variance_along. fold (map (fun p => vsub p (vmean P)) P).
  transitivity (fold_right Rplus 0 (map (fun p => vdot u p * vdot u p) (centred P)) / (INR (length P) - 1)).
  { f_equal. unfold centred. rewrite map_map. reflexivity. }
  generalize dependent (INR (length P) - 1). intros n HN. generalize (centred P). intros C. unfold vdot at 3, mvec. cbn [vx vy vz m00 m01 m02 m10 m11 m12 m20 m21 m22].
  assert (G : fold_right Rplus 0 (map (fun p => vdot u p * vdot u p) C) =
    vx u * (rsum (fun p => comp p 0 * comp p 0) C * vx u + rsum (fun p => comp p 0 * comp p 1) C * vy u + rsum (fun p => comp p 0 * comp p 2) C * vz u) +
    vy u * (rsum (fun p => comp p 1 * comp p 0) C * vx u + rsum (fun p => comp p 1 * comp p 1) C * vy u + rsum (fun p => comp p 1 * comp p 2) C * vz u) +
    vz u * (rsum (fun p => comp p 2 * comp p 0) C * vx u + rsum (fun p => comp p 2 * comp p 1) C * vy u + rsum (fun p => comp p 2 * comp p 2) C * vz u)).
  { induction C as [|p C IH]; cbn [map fold_right rsum]; [ring|]. rewrite IH. unfold rsum. unfold vdot, comp. ring. }
  rewrite G. field. exact HN.
Qed.
(** the axis is a unit vector; if the matrix of eigenvectors happens to be symmetric it is a direction of most variance *)
Theorem C137_axis_partial eig P : (2 <= length P)%nat -> eigen_basis (covariance P) (eig (covariance P)) ->
  exists u, direction_of_most_variance eig P = Some u /\ vnorm u = 1 /\
    (mT (snd (eig (covariance P))) = snd (eig (covariance P)) -> forall w, vnorm w = 1 -> variance_along P w <= variance_along P u).
Proof.
  intros HL [HA HE]. unfold direction_of_most_variance. destruct (Nat.ltb_spec (length P) 2); [lia|]. destruct (eig (covariance P)) as [d E]. cbn [fst snd] in *.
  exists (mrow E (argmax3 d)). split; [reflexivity|]. split; [apply row_unit; auto|]. intros HT w Hw. rewrite !variance_form by auto.
  destruct (orth_right E HE) as [HR _]. set (C := covariance P) in *. clearbody C.
  assert (EC : C = mmul (mmul E (mdiag d)) (mT E)).
  { rewrite <- HA. transitivity (mmul C (mmul E (mT E))); [rewrite HR; destruct C; unfold mmul, mid; cbn; f_equal; ring|]. destruct C, E. unfold mmul, mT; cbn. f_equal; ring. }
  assert (Q : forall z, vdot z (mvec C z) = vx d * (vdot (mcol0 E) z * vdot (mcol0 E) z) + vy d * (vdot (mcol1 E) z * vdot (mcol1 E) z) + vz d * (vdot (mcol2 E) z * vdot (mcol2 E) z)).
  { intros z. rewrite EC. destruct E, d, z. unfold vdot, mvec, mmul, mdiag, mT, mcol0, mcol1, mcol2; cbn. ring. }
  assert (Nw : vdot w w = 1). { unfold vnorm in Hw. assert (0 <= vdot w w). { unfold vdot. nra. } rewrite <- (sqrt_sqrt (vdot w w)) by auto. rewrite Hw. ring. }
  assert (SW : vdot (mcol0 E) w * vdot (mcol0 E) w + vdot (mcol1 E) w * vdot (mcol1 E) w + vdot (mcol2 E) w * vdot (mcol2 E) w = 1).
  { rewrite <- Nw. transitivity (vdot w (mvec (mmul E (mT E)) w)); [|rewrite HR; destruct w; unfold vdot, mvec, mid; cbn; ring]. destruct E, w. unfold vdot, mvec, mmul, mT, mcol0, mcol1, mcol2; cbn. ring. }
  assert (CO : vdot (mcol0 E) (mcol0 E) = 1 /\ vdot (mcol1 E) (mcol1 E) = 1 /\ vdot (mcol2 E) (mcol2 E) = 1 /\ vdot (mcol0 E) (mcol1 E) = 0 /\ vdot (mcol0 E) (mcol2 E) = 0 /\ vdot (mcol1 E) (mcol2 E) = 0).
  { destruct E. unfold mmul, mT, mid in HE. cbn in HE. injection HE as A0 A1 A2 B0 B1 B2 C0 C1 C2. unfold vdot, mcol0, mcol1, mcol2; cbn. repeat split; lra. }
  destruct CO as (N0 & N1 & N2 & O01 & O02 & O12).
  assert (SY : forall a b, vdot a b = vdot b a) by (intros; unfold vdot; ring).
  assert (RC : mrow0 E = mcol0 E /\ mrow1 E = mcol1 E /\ mrow2 E = mcol2 E).
  { destruct E. unfold mT in HT. cbn in HT. injection HT as ? ? ? ? ? ?. unfold mrow0, mrow1, mrow2, mcol0, mcol1, mcol2; cbn. repeat split; congruence. }
  destruct RC as (E0 & E1 & E2). rewrite !Q. pose proof (Rle_0_sqr (vdot (mcol0 E) w)) as S0. pose proof (Rle_0_sqr (vdot (mcol1 E) w)) as S1. pose proof (Rle_0_sqr (vdot (mcol2 E) w)) as S2. unfold Rsqr in *.
  set (a := vdot (mcol0 E) w * vdot (mcol0 E) w) in *. set (b := vdot (mcol1 E) w * vdot (mcol1 E) w) in *. set (c := vdot (mcol2 E) w * vdot (mcol2 E) w) in *.
  assert (M : forall m, vx d <= m -> vy d <= m -> vz d <= m -> vx d * a + vy d * b + vz d * c <= m).
  { intros m X Y Z. apply Rle_trans with (m * a + m * b + m * c); [|rewrite <- !Rmult_plus_distr_l, SW; lra]. repeat apply Rplus_le_compat; apply Rmult_le_compat_r; auto. }
  unfold argmax3, Rleb. destruct (Rle_dec (vy d) (vx d)), (Rle_dec (vz d) (vx d)), (Rle_dec (vz d) (vy d)); cbn [andb mrow]; rewrite ?E0, ?E1, ?E2, ?(SY (mcol1 E) (mcol0 E)), ?(SY (mcol2 E) (mcol0 E)), ?(SY (mcol2 E) (mcol1 E)), ?N0, ?N1, ?N2, ?O01, ?O02, ?O12;
    match goal with |- _ <= vx d * (1 * 1) + _ + _ => replace (vx d * (1 * 1) + vy d * (0 * 0) + vz d * (0 * 0)) with (vx d) by ring
    | |- _ <= _ + vy d * (1 * 1) + _ => replace (vx d * (0 * 0) + vy d * (1 * 1) + vz d * (0 * 0)) with (vy d) by ring
    | |- _ => replace (vx d * (0 * 0) + vy d * (0 * 0) + vz d * (1 * 1)) with (vz d) by ring end; apply M; lra.
Qed.
(** but the code takes a row of the matrix of eigenvectors instead of a column: the two points (1,1,0) and (-1,-1,0) vary along
    (1,1,0), and the axis can come out orthogonal to it, with no variance at all *)
Theorem C137_axis_refuted : exists eig P u w, (2 <= length P)%nat /\ eigen_basis (covariance P) (eig (covariance P)) /\
  direction_of_most_variance eig P = Some u /\ variance_along P u = 0 /\ vnorm w = 1 /\ variance_along P w = 4.
Proof.
  set (c := sqrt (1/2)). assert (CC : c * c = 1/2) by (apply sqrt_sqrt; lra).
  set (E := mkM c (- c) 0 c c 0 0 0 1). set (P := [mkV 1 1 0; mkV (-1) (-1) 0]).
  assert (HL : (2 <= length P)%nat) by (cbn; lia).
  assert (EC : covariance P = mkM 2 2 0 2 2 0 0 0 0).
  { unfold covariance. rewrite centred_twice by (cbn; lia). unfold centred, P, vmean, rsum, comp, vdiv, vsub; cbn [map fold_right length vx vy vz vadd vzero]. cbn [INR]. f_equal; field. }
  exists (fun _ => (mkV 4 0 0, E)), P, (mkV c (- c) 0), (mkV c c 0). split; [exact HL|].
  split. { rewrite EC. split; cbn [fst snd]; unfold mmul, mT, mdiag, mid, E; cbn; f_equal; try ring; lra. }
  split. { unfold direction_of_most_variance. destruct (Nat.ltb_spec (length P) 2); [lia|]. f_equal. unfold argmax3, Rleb; cbn [vx vy vz]. destruct (Rle_dec 0 4); [reflexivity|lra]. }
  rewrite !variance_form, !EC by auto. unfold vdot, mvec; cbn. split; [ring|]. split; [|lra]. unfold vnorm, vdot; cbn. replace (c * c + c * c + 0 * 0) with 1 by lra. apply sqrt_1.
Qed.
Print Assumptions C137_create_mesh.
Print Assumptions C137_axis_partial.
Print Assumptions C137_axis_refuted.
