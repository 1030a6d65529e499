(** Property theorems C28-C32: barycentric coordinates and tetrahedron geometry
    (rainbow/geometry/barycentric.py, tetrahedron.py).  The statements use only vectors, weighted
    sums and orthogonality. *)
From Verif Require Import Base VecModel VecProofs GridModel GridProofs BaryModel.
From Coq Require Import Permutation.
Open Scope R_scope.

(** ** Vocabulary *)
(** w1 x1 + w2 x2 (+ ...) *)
Definition comb2 (w1 w2 : R) (x1 x2 : vec3) := vadd (vscale w1 x1) (vscale w2 x2).
Definition comb3 (w1 w2 w3 : R) (x1 x2 x3 : vec3) := vadd (comb2 w1 w2 x1 x2) (vscale w3 x3).
Definition comb4 (w1 w2 w3 w4 : R) (x1 x2 x3 x4 : vec3) := vadd (comb3 w1 w2 w3 x1 x2 x3) (vscale w4 x4).
Definition dist (a b : vec3) : R := vnorm (vsub a b).
(** twice the area vector, six times the volume *)
Definition tri_normal (x1 x2 x3 : vec3) := vcross (vsub x2 x1) (vsub x3 x1).
Definition vol6 (x1 x2 x3 x4 : vec3) : R := vdot (vsub x4 x1) (tri_normal x1 x2 x3).

(** ** C28 *)
Lemma edge_weights x1 x2 p w1 w2 : compute_barycentric_edge x1 x2 p = Some (w1, w2) ->
  let u := vsub x2 x1 in 0 < vdot u u /\ w2 = vdot u (vsub p x1) / vdot u u /\ w1 = 1 - vdot u (vsub p x1) / vdot u u.
Proof.
  unfold compute_barycentric_edge. cbv zeta. set (u := vsub x2 x1). set (uu := vdot u u).
  destruct (Rleb_spec uu 0) as [|H]; [discriminate|]. set (s := vdot u (vsub p x1) / uu). intros E. injection E as <- <-.
  split; [lra|].
  replace (vsub (vadd (vscale s u) x1) x2) with (vscale (s - 1) u) by (unfold u; vring).
  replace (vsub (vadd (vscale s u) x1) x1) with (vscale s u) by vring.
  replace (vdot u (vscale (s - 1) u)) with ((s - 1) * uu) by (unfold uu; clearbody u; vring).
  replace (vdot u (vscale s u)) with (s * uu) by (unfold uu; clearbody u s; vring).
  replace (vdot (vscale (s - 1) u) (vscale (s - 1) u) / uu) with (Rsqr (s - 1)).
  2: { unfold Rsqr. replace (vdot (vscale (s - 1) u) (vscale (s - 1) u)) with ((s - 1) * (s - 1) * uu) by (unfold uu; clearbody u s; vring). field; lra. }
  replace (vdot (vscale s u) (vscale s u) / uu) with (Rsqr s).
  2: { unfold Rsqr. replace (vdot (vscale s u) (vscale s u)) with (s * s * uu) by (unfold uu; clearbody u s; vring). field; lra. }
  rewrite !sqrt_Rsqr_abs. split.
  - destruct (Rleb_spec 0 (s * uu)); [apply Rabs_pos_eq; nra|rewrite Rabs_left by nra; ring].
  - destruct (Rleb_spec ((s - 1) * uu) 0); [rewrite Rabs_left1 by nra; ring|rewrite Rabs_pos_eq by nra; ring].
Qed.
Theorem C28_edge : forall x1 x2 p, x1 <> x2 -> exists w1 w2, compute_barycentric_edge x1 x2 p = Some (w1, w2) /\
  w1 + w2 = 1 /\
  vdot (vsub p (comb2 w1 w2 x1 x2)) (vsub x2 x1) = 0 /\
  (forall t, dist p (comb2 w1 w2 x1 x2) <= dist p (comb2 (1 - t) t x1 x2)).
Proof.
  intros x1 x2 p Hn. assert (Hu : vsub x2 x1 <> vzero).
  { intros E. apply Hn. assert (Ex := f_equal vx E). assert (Ey := f_equal vy E). assert (Ez := f_equal vz E). cbn in *. apply vec3_eq; lra. }
  pose proof (vdot_self_pos _ Hu) as Hp.
  destruct (compute_barycentric_edge x1 x2 p) as [[w1 w2]|] eqn:E.
  2: { unfold compute_barycentric_edge in E. destruct (Rleb_spec (vdot (vsub x2 x1) (vsub x2 x1)) 0); [lra|discriminate]. }
  exists w1, w2. split; auto. apply edge_weights in E. cbv zeta in E. destruct E as (_ & E2 & E1). split; [lra|].
  assert (O : vdot (vsub p (comb2 w1 w2 x1 x2)) (vsub x2 x1) = 0).
  { replace (comb2 w1 w2 x1 x2) with (vadd x1 (vscale w2 (vsub x2 x1))).
    2: { replace w1 with (1 - w2) by lra. unfold comb2. clear. vring. }
    replace (vdot (vsub p (vadd x1 (vscale w2 (vsub x2 x1)))) (vsub x2 x1)) with (vdot (vsub x2 x1) (vsub p x1) - w2 * vdot (vsub x2 x1) (vsub x2 x1)) by (clear; vring).
    rewrite E2. field. lra. }
  split; auto. intros t. apply sqrt_le_1_alt.
  set (q := comb2 w1 w2 x1 x2) in *. set (u := vsub x2 x1) in *.
  replace (vsub p (comb2 (1 - t) t x1 x2)) with (vadd (vsub p q) (vscale (w2 - t) u)).
  2: { unfold q, u. replace w1 with (1 - w2) by lra. unfold comb2. clear. vring. }
  replace (vdot (vadd (vsub p q) (vscale (w2 - t) u)) (vadd (vsub p q) (vscale (w2 - t) u)))
    with (vdot (vsub p q) (vsub p q) + 2 * (w2 - t) * vdot (vsub p q) u + (w2 - t) * (w2 - t) * vdot u u) by (clear; clearbody q u; vring).
  rewrite O. pose proof (vdot_self_nonneg u). pose proof (Rle_0_sqr (w2 - t)). unfold Rsqr in *. nra.
Qed.
Print Assumptions C28_edge.
Theorem C28_edge_degenerate : forall x p, compute_barycentric_edge x x p = None.
Proof.
  intros x p. unfold compute_barycentric_edge. destruct (Rleb_spec (vdot (vsub x x) (vsub x x)) 0) as [|H]; auto.
  exfalso. apply H. unfold vdot, vsub; cbn. right; ring.
Qed.
Print Assumptions C28_edge_degenerate.
Theorem C28_edge_inside : forall x1 x2 p w1 w2, compute_barycentric_edge x1 x2 p = Some (w1, w2) ->
  (is_inside_edge w1 w2 = true <-> 0 <= vdot (vsub p x1) (vsub x2 x1) <= vdot (vsub x2 x1) (vsub x2 x1)).
Proof.
  intros x1 x2 p w1 w2 E. apply edge_weights in E. cbv zeta in E. destruct E as (Hp & E2 & E1).
  set (u := vsub x2 x1) in *. assert (S : w1 + w2 = 1) by lra.
  assert (D : vdot (vsub p x1) u = w2 * vdot u u). { rewrite E2. replace (vdot (vsub p x1) u) with (vdot u (vsub p x1)) by (clear; clearbody u; vring). field; lra. }
  rewrite D. unfold is_inside_edge. rewrite S.
  destruct (Rltb_spec w1 0), (Rltb_spec w2 0), (Rltb_spec 1 w1), (Rltb_spec 1 w2), (Rltb_spec 1 1), (Rltb_spec 1 0); try lra; split; intros Q; try discriminate; auto; try nra.
Qed.
Print Assumptions C28_edge_inside.
Example C28_nonvacuous : mkV 0 0 0 <> mkV 2 0 0 /\ compute_barycentric_edge (mkV 0 0 0) (mkV 2 0 0) (mkV (1/2) 3 4) = Some (3/4, 1/4).
Proof.
  assert (N : mkV 0 0 0 <> mkV 2 0 0) by (intros E; injection E; lra). split; auto.
  destruct (C28_edge (mkV 0 0 0) (mkV 2 0 0) (mkV (1/2) 3 4) N) as (w1 & w2 & E & _). rewrite E. apply edge_weights in E. cbv zeta in E. destruct E as (_ & -> & ->).
  unfold vdot, vsub; cbn. do 2 f_equal; field.
Qed.

(** ** C29 *)
Lemma solve3_spec A b : mdet A <> 0 -> exists q, np_solve3 A b = Some q /\ mvec A q = b /\ forall q', mvec A q' = b -> q' = q.
Proof.
  intros H. unfold np_solve3. destruct (Reqb_spec (mdet A) 0) as [|_]; [contradiction|]. eexists. split; [reflexivity|].
  destruct A as [a00 a01 a02 a10 a11 a12 a20 a21 a22], b as [b0 b1 b2]. unfold make_from_cols, mcol0, mcol1, mcol2, mdet, mvec in *; cbn in *.
  split; [apply vec3_eq; cbn; field; auto|].
  intros [q0 q1 q2] E. injection E as <- <- <-. cbn. apply vec3_eq; cbn; field; auto.
Qed.
Lemma det_cols a b c : mdet (make_from_cols a b c) = vdot c (vcross a b).
Proof. unfold make_from_cols. vring. Qed.
Lemma mvec_cols a b c q : mvec (make_from_cols a b c) q = vadd (vadd (vscale (vx q) a) (vscale (vy q) b)) (vscale (vz q) c).
Proof. unfold make_from_cols. vring. Qed.
Theorem C29_triangle : forall x1 x2 x3 p, tri_normal x1 x2 x3 <> vzero ->
  exists w1 w2 w3, compute_barycentric_triangle x1 x2 x3 p = Some (w1, w2, w3) /\ w1 + w2 + w3 = 1 /\
  let q := comb3 w1 w2 w3 x1 x2 x3 in
  (* q is the orthogonal projection of p on the plane, hence its closest point *)
  vdot (vsub p q) (vsub x2 x1) = 0 /\ vdot (vsub p q) (vsub x3 x1) = 0 /\
  (forall v1 v2 v3, v1 + v2 + v3 = 1 -> dist p q <= dist p (comb3 v1 v2 v3 x1 x2 x3)) /\
  (* uniqueness *)
  (forall v1 v2 v3, v1 + v2 + v3 = 1 -> comb3 v1 v2 v3 x1 x2 x3 = q -> v1 = w1 /\ v2 = w2 /\ v3 = w3).
Proof.
  intros x1 x2 x3 p Hn. unfold tri_normal in Hn. unfold compute_barycentric_triangle. set (b1 := vsub x2 x1) in *. set (b2 := vsub x3 x1) in *.
  set (n := vcross b1 b2) in *.
  assert (N1 : b1 <> vzero) by (intros E; apply Hn; unfold n; rewrite E; vring).
  assert (N2 : b2 <> vzero) by (intros E; apply Hn; unfold n; rewrite E; vring).
  pose proof (vnorm_pos _ N1) as L1. pose proof (vnorm_pos _ N2) as L2. pose proof (vdot_self_pos _ Hn) as Ln.
  destruct (Reqb_spec (vnorm b1) 0) as [|_]; [lra|]. destruct (Reqb_spec (vnorm b2) 0) as [|_]; [lra|]. cbn [orb].
  set (l1 := vnorm b1) in *. set (l2 := vnorm b2) in *.
  set (k := / (l1 * l2)). assert (Hk : 0 < k) by (apply Rinv_0_lt_compat, Rmult_lt_0_compat; auto).
  assert (E3 : vcross (vdiv b1 l1) (vdiv b2 l2) = vscale k n).
  { unfold n, k. clearbody l1 l2 b1 b2. destruct b1, b2. unfold vcross, vdiv, vscale; cbn. f_equal; field; lra. }
  rewrite E3. assert (D : mdet (make_from_cols b1 b2 (vscale k n)) <> 0).
  { rewrite det_cols. fold n. replace (vdot (vscale k n) n) with (k * vdot n n) by (clearbody k n; vring). nra. }
  destruct (solve3_spec _ (vsub p x1) D) as (q & -> & Eq & _). rewrite mvec_cols in Eq.
  exists (1 - vx q - vy q), (vx q), (vy q). split; auto. split; [ring|]. cbv zeta.
  assert (Ed : vsub p (comb3 (1 - vx q - vy q) (vx q) (vy q) x1 x2 x3) = vscale (vz q * k) n).
  { assert (Ep : p = vadd x1 (vadd (vadd (vscale (vx q) b1) (vscale (vy q) b2)) (vscale (vz q) (vscale k n)))) by (rewrite Eq; clear; vring).
    rewrite Ep at 1. unfold comb3, comb2, b1, b2. clear. clearbody n k. destruct q as [a b c]; cbn [vx vy vz]. vring. }
  rewrite Ed.
  assert (O1 : vdot n b1 = 0) by (unfold n; clear; clearbody b1 b2; vring). assert (O2 : vdot n b2 = 0) by (unfold n; clear; clearbody b1 b2; vring).
  split; [|split; [|split]].
  - replace (vdot (vscale (vz q * k) n) b1) with (vz q * k * vdot n b1) by (clear; clearbody n k b1; vring). rewrite O1; ring.
  - replace (vdot (vscale (vz q * k) n) b2) with (vz q * k * vdot n b2) by (clear; clearbody n k b2; vring). rewrite O2; ring.
  - intros v1 v2 v3 Hv. unfold dist. rewrite Ed. apply sqrt_le_1_alt.
    set (e := vadd (vscale (vx q - v2) b1) (vscale (vy q - v3) b2)).
    replace (vsub p (comb3 v1 v2 v3 x1 x2 x3)) with (vadd (vscale (vz q * k) n) e).
    2: { rewrite <- Ed. unfold e, comb3, comb2, b1, b2. replace v1 with (1 - v2 - v3) by lra. clear. destruct q as [a b c]; cbn [vx vy vz]. vring. }
    assert (Oe : vdot n e = 0). { unfold e. replace (vdot n (vadd (vscale (vx q - v2) b1) (vscale (vy q - v3) b2))) with ((vx q - v2) * vdot n b1 + (vy q - v3) * vdot n b2) by (clear; clearbody n b1 b2; vring). rewrite O1, O2; ring. }
    set (c := vz q * k). replace (vdot (vadd (vscale c n) e) (vadd (vscale c n) e)) with (vdot (vscale c n) (vscale c n) + 2 * c * vdot n e + vdot e e) by (clear; clearbody c n e; vring).
    rewrite Oe. pose proof (vdot_self_nonneg e). lra.
  - intros v1 v2 v3 Hv E.
    set (e := vadd (vscale (v2 - vx q) b1) (vscale (v3 - vy q) b2)).
    assert (Ee : e = vzero).
    { unfold e, b1, b2. replace v1 with (1 - v2 - v3) in E by lra. unfold comb3, comb2 in E. assert (X := f_equal vx E). assert (Y := f_equal vy E). assert (W := f_equal vz E). cbn in X, Y, W.
      apply vec3_eq; cbn; lra. }
    assert (C1 : vscale (v2 - vx q) n = vzero). { transitivity (vcross e b2); [unfold e, n; clear; clearbody b1 b2; destruct q as [qa qb qc]; cbn [vx vy vz]; vring|rewrite Ee; clear; vring]. }
    assert (C2 : vscale (v3 - vy q) n = vzero). { transitivity (vcross b1 e); [unfold e, n; clear; clearbody b1 b2; destruct q as [qa qb qc]; cbn [vx vy vz]; vring|rewrite Ee; clear; vring]. }
    assert (Z : forall t, vscale t n = vzero -> t = 0).
    { intros t Ht. destruct (Req_dec t 0); auto. exfalso. apply Hn. assert (X := f_equal vx Ht). assert (Y := f_equal vy Ht). assert (W := f_equal vz Ht). cbn in X, Y, W.
      apply vec3_eq; cbn; [apply Rmult_integral in X|apply Rmult_integral in Y|apply Rmult_integral in W]; tauto. }
    apply Z in C1, C2. lra.
Qed.
Print Assumptions C29_triangle.
Theorem C29_tetrahedron : forall x1 x2 x3 x4 p, vol6 x1 x2 x3 x4 <> 0 ->
  exists w1 w2 w3 w4, compute_barycentric_tetrahedron x1 x2 x3 x4 p = Some (w1, w2, w3, w4) /\ w1 + w2 + w3 + w4 = 1 /\
  comb4 w1 w2 w3 w4 x1 x2 x3 x4 = p /\
  (forall v1 v2 v3 v4, v1 + v2 + v3 + v4 = 1 -> comb4 v1 v2 v3 v4 x1 x2 x3 x4 = p -> v1 = w1 /\ v2 = w2 /\ v3 = w3 /\ v4 = w4).
Proof.
  intros x1 x2 x3 x4 p H. unfold vol6, tri_normal in H. unfold compute_barycentric_tetrahedron.
  destruct (Rltb_spec 0 (vdot (vsub x4 x1) (vcross (vsub x2 x1) (vsub x3 x1)))).
  - destruct (solve3_spec (make_from_cols (vsub x2 x1) (vsub x3 x1) (vsub x4 x1)) (vsub p x1)) as (q & -> & Eq & U); [rewrite det_cols; auto|].
    do 4 eexists. split; [reflexivity|]. split; [ring|]. rewrite mvec_cols in Eq. split.
    + transitivity (vadd x1 (vadd (vadd (vscale (vx q) (vsub x2 x1)) (vscale (vy q) (vsub x3 x1))) (vscale (vz q) (vsub x4 x1)))); [unfold comb4, comb3, comb2; destruct q as [qa qb qc]; cbn [vx vy vz]; vring|rewrite Eq; vring].
    + intros v1 v2 v3 v4 Hv E. specialize (U (mkV v2 v3 v4)). rewrite mvec_cols in U; cbn [vx vy vz] in U.
      assert (mkV v2 v3 v4 = q) as <-; [|cbn; lra]. apply U. rewrite <- E. replace v1 with (1 - v2 - v3 - v4) by lra. unfold comb4, comb3, comb2. vring.
  - destruct (solve3_spec (make_from_cols (vsub x2 x1) (vsub x4 x1) (vsub x3 x1)) (vsub p x1)) as (q & -> & Eq & U).
    { rewrite det_cols. replace (vdot (vsub x3 x1) (vcross (vsub x2 x1) (vsub x4 x1))) with (- vdot (vsub x4 x1) (vcross (vsub x2 x1) (vsub x3 x1))) by vring. lra. }
    do 4 eexists. split; [reflexivity|]. split; [ring|]. rewrite mvec_cols in Eq. split.
    + transitivity (vadd x1 (vadd (vadd (vscale (vx q) (vsub x2 x1)) (vscale (vy q) (vsub x4 x1))) (vscale (vz q) (vsub x3 x1)))); [unfold comb4, comb3, comb2; destruct q as [qa qb qc]; cbn [vx vy vz]; vring|rewrite Eq; vring].
    + intros v1 v2 v3 v4 Hv E. specialize (U (mkV v2 v4 v3)). rewrite mvec_cols in U; cbn [vx vy vz] in U.
      assert (mkV v2 v4 v3 = q) as <-; [|cbn; lra]. apply U. rewrite <- E. replace v1 with (1 - v2 - v3 - v4) by lra. unfold comb4, comb3, comb2. vring.
Qed.
Print Assumptions C29_tetrahedron.
Theorem C29_is_inside : forall w1 w2 w3 w4,
  (w1 + w2 = 1 -> (is_inside_edge w1 w2 = true <-> 0 <= w1 /\ 0 <= w2)) /\
  (w1 + w2 + w3 = 1 -> (is_inside_triangle w1 w2 w3 = true <-> 0 <= w1 /\ 0 <= w2 /\ 0 <= w3)) /\
  (w1 + w2 + w3 + w4 = 1 -> (is_inside_tetrahedron w1 w2 w3 w4 = true <-> 0 <= w1 /\ 0 <= w2 /\ 0 <= w3 /\ 0 <= w4)).
Proof.
  intros w1 w2 w3 w4. split; [|split]; intros S; unfold is_inside_edge, is_inside_triangle, is_inside_tetrahedron; rewrite S; split.
  all: try (repeat match goal with |- context [if Rltb ?a ?b then _ else _] => destruct (Rltb_spec a b) end; intros; try discriminate; lra).
Qed.
Print Assumptions C29_is_inside.
(** ... hence is_inside on the computed weights decides membership in the simplex (its convex hull) *)
Theorem C29_inside_tetrahedron_hull : forall x1 x2 x3 x4 p w1 w2 w3 w4, vol6 x1 x2 x3 x4 <> 0 ->
  compute_barycentric_tetrahedron x1 x2 x3 x4 p = Some (w1, w2, w3, w4) ->
  (is_inside_tetrahedron w1 w2 w3 w4 = true <->
   exists v1 v2 v3 v4, 0 <= v1 /\ 0 <= v2 /\ 0 <= v3 /\ 0 <= v4 /\ v1 + v2 + v3 + v4 = 1 /\ p = comb4 v1 v2 v3 v4 x1 x2 x3 x4).
Proof.
  intros x1 x2 x3 x4 p w1 w2 w3 w4 H E. destruct (C29_tetrahedron x1 x2 x3 x4 p H) as (u1 & u2 & u3 & u4 & E' & S & C & U).
  rewrite E in E'. injection E' as <- <- <- <-. destruct (C29_is_inside w1 w2 w3 w4) as (_ & _ & I). rewrite (I S). split.
  - intros (A & B & D & F). exists w1, w2, w3, w4. repeat split; auto.
  - intros (v1 & v2 & v3 & v4 & A & B & D & F & Sv & Ep). destruct (U v1 v2 v3 v4 Sv (eq_sym Ep)) as (-> & -> & -> & ->). auto.
Qed.
Print Assumptions C29_inside_tetrahedron_hull.
Definition e0 := mkV 0 0 0. Definition e1 := mkV 1 0 0. Definition e2 := mkV 0 1 0. Definition e3 := mkV 0 0 1.
Example C29_nonvacuous : tri_normal e0 e1 e2 <> vzero /\ vol6 e0 e1 e2 e3 <> 0 /\ vol6 e0 e2 e1 e3 < 0.
Proof. unfold vol6, tri_normal, e0, e1, e2, e3. split; [intros E; injection E; lra|]. vunf. split; lra. Qed.

(** ** C30 *)
(** the barycentric coordinate functions *)
Definition bary (x1 x2 x3 x4 p : vec3) : R * R * R * R :=
  match compute_barycentric_tetrahedron x1 x2 x3 x4 p with Some w => w | None => (0, 0, 0, 0) end.
(** For an affine function: g is the gradient iff the increments are g . h (stronger than the limit). *)
Theorem C30_gradients : forall x1 x2 x3 x4, 0 < vol6 x1 x2 x3 x4 ->
  exists g1 g2 g3 g4, compute_barycentric_derivatives_tetrahedron x1 x2 x3 x4 = Some (g1, g2, g3, g4) /\
  vadd (vadd (vadd g1 g2) g3) g4 = vzero /\
  forall p h w1 w2 w3 w4 v1 v2 v3 v4,
    compute_barycentric_tetrahedron x1 x2 x3 x4 p = Some (w1, w2, w3, w4) ->
    compute_barycentric_tetrahedron x1 x2 x3 x4 (vadd p h) = Some (v1, v2, v3, v4) ->
    v1 - w1 = vdot g1 h /\ v2 - w2 = vdot g2 h /\ v3 - w3 = vdot g3 h /\ v4 - w4 = vdot g4 h.
Proof.
  intros x1 x2 x3 x4 H. unfold compute_barycentric_derivatives_tetrahedron. pose proof H as H0. unfold vol6, tri_normal in H0.
  destruct (Rleb_spec (vdot (vsub x4 x1) (vcross (vsub x2 x1) (vsub x3 x1))) 0) as [|_]; [lra|].
  set (V := vdot (vsub x4 x1) (vcross (vsub x2 x1) (vsub x3 x1))) in *.
  set (g1 := vdiv (vcross (vsub x4 x2) (vsub x3 x2)) V). set (g2 := vdiv (vcross (vsub x3 x1) (vsub x4 x1)) V).
  set (g3 := vdiv (vcross (vsub x4 x1) (vsub x2 x1)) V). set (g4 := vdiv (vcross (vsub x2 x1) (vsub x3 x1)) V).
  exists g1, g2, g3, g4. split; auto. split.
  { unfold g1, g2, g3, g4. clearbody V. destruct x1, x2, x3, x4. vunf. f_equal; field; lra. }
  intros p h w1 w2 w3 w4 v1 v2 v3 v4 Ew Ev.
  destruct (C29_tetrahedron x1 x2 x3 x4 p) as (a1 & a2 & a3 & a4 & Ea & Sa & Ca & _); [lra|]. rewrite Ew in Ea. injection Ea as <- <- <- <-.
  destruct (C29_tetrahedron x1 x2 x3 x4 (vadd p h)) as (a1 & a2 & a3 & a4 & Ea & Sb & Cb & _); [lra|]. rewrite Ev in Ea. injection Ea as <- <- <- <-.
  set (d2 := v2 - w2). set (d3 := v3 - w3). set (d4 := v4 - w4).
  assert (Eh : h = vadd (vadd (vscale d2 (vsub x2 x1)) (vscale d3 (vsub x3 x1))) (vscale d4 (vsub x4 x1))).
  { transitivity (vsub (vadd p h) p); [vring|]. rewrite <- Cb at 1. rewrite <- Ca. unfold d2, d3, d4, comb4, comb3, comb2.
    replace w1 with (1 - w2 - w3 - w4) by lra. replace v1 with (1 - v2 - v3 - v4) by lra. vring. }
  assert (D1 : v1 - w1 = - d2 - d3 - d4) by (unfold d2, d3, d4; lra). rewrite D1.
  fold d2. fold d3. fold d4. rewrite Eh. clearbody d2 d3 d4. clear - H0.
  assert (K : forall t s : R, t * V = s -> t = s * / V) by (intros t s E; rewrite <- E; field; lra).
  assert (P : forall a b, vdot (vdiv a V) b = vdot a b * / V) by (intros [] []; vunf; field; lra).
  unfold g1, g2, g3, g4. rewrite !P. repeat split; apply K; unfold V; vring.
Qed.
Print Assumptions C30_gradients.
Theorem C30_rejects : forall x1 x2 x3 x4, vol6 x1 x2 x3 x4 <= 0 -> compute_barycentric_derivatives_tetrahedron x1 x2 x3 x4 = None.
Proof.
  intros x1 x2 x3 x4 H. unfold compute_barycentric_derivatives_tetrahedron. unfold vol6, tri_normal in H.
  destruct (Rleb_spec (vdot (vsub x4 x1) (vcross (vsub x2 x1) (vsub x3 x1))) 0); auto. lra.
Qed.
Print Assumptions C30_rejects.
Example C30_nonvacuous : 0 < vol6 e0 e1 e2 e3 /\ compute_barycentric_tetrahedron e0 e1 e2 e3 (mkV (1/4) (1/4) (1/4)) = Some (1/4, 1/4, 1/4, 1/4).
Proof.
  assert (V : 0 < vol6 e0 e1 e2 e3) by (unfold vol6, tri_normal, e0, e1, e2, e3; vunf; lra). split; auto.
  destruct (C29_tetrahedron e0 e1 e2 e3 (mkV (1/4) (1/4) (1/4))) as (w1 & w2 & w3 & w4 & -> & S & C & U); [lra|].
  destruct (U (1/4) (1/4) (1/4) (1/4)) as (<- & <- & <- & <-); auto; [lra|]. unfold comb4, comb3, comb2, e0, e1, e2, e3. vunf. f_equal; lra.
Qed.

(** ** C31 *)
Theorem C31_circumscribed : forall p0 p1 p2 p3 c r, vol6 p0 p1 p2 p3 <> 0 -> compute_circumscribed_sphere p0 p1 p2 p3 c r ->
  dist c p0 = r /\ dist c p1 = r /\ dist c p2 = r /\ dist c p3 = r.
Proof.
  intros p0 p1 p2 p3 c r H. unfold compute_circumscribed_sphere. set (A := vsub p0 p3). set (B := vsub p1 p3). set (C := vsub p2 p3). cbv zeta.
  set (M := mkM _ _ _ _ _ _ _ _ _). set (q := vscale (1 / 2) _). intros (u & L & -> & ->).
  assert (DM : mdet M <> 0).
  { replace (mdet M) with (mdet (make_from_cols A B C) * mdet (make_from_cols A B C)) by (unfold M, make_from_cols; clear; clearbody A B C; vring).
    rewrite det_cols. replace (vdot C (vcross A B)) with (- vol6 p0 p1 p2 p3) by (unfold A, B, C, vol6, tri_normal; clear; vring). nra. }
  destruct (solve3_spec M q DM) as (x & _ & Ex & _).
  assert (E : mvec M u = q).
  { specialize (L x). cbv zeta in L. rewrite Ex in L. replace (vsub q q) with vzero in L by vring. unfold vdot at 2 in L; cbn in L.
    pose proof (vdot_self_nonneg (vsub (mvec M u) q)). assert (Z : vdot (vsub (mvec M u) q) (vsub (mvec M u) q) = 0) by lra.
    apply vdot_self_zero in Z. assert (X := f_equal vx Z). assert (Y := f_equal vy Z). assert (W := f_equal vz Z). unfold vsub, vzero in X, Y, W; cbn [vx vy vz] in X, Y, W. apply vec3_eq; lra. }
  set (w := vadd (vadd (vscale (vx u) A) (vscale (vy u) B)) (vscale (vz u) C)).
  assert (E0 : vdot A w = 1 / 2 * vdot A A).
  { transitivity (vx (mvec M u)); [|rewrite E; reflexivity]. unfold w, M. clear; clearbody A B C. destruct u; vring. }
  assert (E1 : vdot B w = 1 / 2 * vdot B B).
  { transitivity (vy (mvec M u)); [|rewrite E; reflexivity]. unfold w, M. clear; clearbody A B C. destruct u; vring. }
  assert (E2 : vdot C w = 1 / 2 * vdot C C).
  { transitivity (vz (mvec M u)); [|rewrite E; reflexivity]. unfold w, M. clear; clearbody A B C. destruct u; vring. }
  set (c := vadd (vadd (vadd (vscale (vx u) p0) (vscale (vy u) p1)) (vscale (vz u) p2)) (vscale (1 - vx u - vy u - vz u) p3)).
  assert (Ec : forall p, vsub c p = vsub w (vsub p p3)) by (intros p; unfold c, w, A, B, C; clear; destruct u; vring).
  assert (Q : forall p X, vsub p p3 = X -> vdot X w = 1 / 2 * vdot X X -> dist c p = vnorm w).
  { intros p X EX HX. unfold dist, vnorm. f_equal. rewrite Ec, EX.
    replace (vdot (vsub w X) (vsub w X)) with (vdot w w - 2 * vdot X w + vdot X X) by (clear; clearbody w; vring). rewrite HX. field. }
  repeat split; [apply (Q p0 A)|apply (Q p1 B)|apply (Q p2 C)|apply (Q p3 vzero)]; auto; unfold vdot, vsub; cbn; try ring.
  unfold vsub, vzero; f_equal; ring.
Qed.
Print Assumptions C31_circumscribed.
Theorem C31_circumscribed_exists : forall p0 p1 p2 p3, vol6 p0 p1 p2 p3 <> 0 -> exists c r, compute_circumscribed_sphere p0 p1 p2 p3 c r.
Proof.
  intros p0 p1 p2 p3 H. unfold compute_circumscribed_sphere. set (A := vsub p0 p3). set (B := vsub p1 p3). set (C := vsub p2 p3). cbv zeta.
  set (M := mkM _ _ _ _ _ _ _ _ _). set (q := vscale (1 / 2) _).
  assert (DM : mdet M <> 0).
  { replace (mdet M) with (mdet (make_from_cols A B C) * mdet (make_from_cols A B C)) by (unfold M, make_from_cols; clear; clearbody A B C; vring).
    rewrite det_cols. replace (vdot C (vcross A B)) with (- vol6 p0 p1 p2 p3) by (unfold A, B, C, vol6, tri_normal; clear; vring). nra. }
  destruct (solve3_spec M q DM) as (x & _ & Ex & _). do 2 eexists. exists x. split; [|split; reflexivity].
  intros y. cbv zeta. rewrite Ex. replace (vdot (vsub q q) (vsub q q)) with 0 by (clear; clearbody q; vring). apply vdot_self_nonneg.
Qed.
Print Assumptions C31_circumscribed_exists.
(** signed distance of c to the plane through a with (non-unit) normal n *)
Definition plane_dist (c a n : vec3) : R := vdot n (vsub c a) / vnorm n.
(** inward face normals of a positively oriented tetrahedron *)
Definition face_m pi pj pk (pm : vec3) := tri_normal pi pj pk.
Definition face_i (pi : vec3) pj pk pm := tri_normal pj pm pk.
Definition face_j pi (pj : vec3) pk pm := tri_normal pk pm pi.
Definition face_k pi pj (pk : vec3) pm := tri_normal pi pm pj.
Lemma face_nonzero x1 x2 x3 x4 : vol6 x1 x2 x3 x4 <> 0 -> tri_normal x1 x2 x3 <> vzero.
Proof. intros H E. apply H. unfold vol6. rewrite E. clear. vring. Qed.
Lemma faces_nz pi pj pk pm : vol6 pi pj pk pm <> 0 ->
  face_m pi pj pk pm <> vzero /\ face_i pi pj pk pm <> vzero /\ face_j pi pj pk pm <> vzero /\ face_k pi pj pk pm <> vzero.
Proof.
  intros H. unfold face_m, face_i, face_j, face_k. split; [|split; [|split]].
  - eapply face_nonzero; eauto.
  - apply (face_nonzero _ _ _ pi). intros E. apply H. rewrite <- E. unfold vol6, tri_normal. clear. vring.
  - apply (face_nonzero _ _ _ pj). intros E. apply H. rewrite <- E. unfold vol6, tri_normal. clear. vring.
  - apply (face_nonzero _ _ _ pk). intros E. apply H. rewrite <- E. unfold vol6, tri_normal. clear. vring.
Qed.
Lemma unit_plane n a c : n <> vzero -> vdot (v3_unit n) c - vdot (v3_unit n) a = plane_dist c a n.
Proof.
  intros H. pose proof (vnorm_pos _ H). unfold plane_dist, v3_unit. set (l := vnorm n) in *. clearbody l. destruct n, a, c; vunf; field; lra.
Qed.
Lemma insphere_res_planes pi pj pk pm c r : vol6 pi pj pk pm <> 0 ->
  insphere_res pi pj pk pm c r = Rsqr (plane_dist c pi (face_m pi pj pk pm) - r) + Rsqr (plane_dist c pj (face_i pi pj pk pm) - r)
    + Rsqr (plane_dist c pk (face_j pi pj pk pm) - r) + Rsqr (plane_dist c pi (face_k pi pj pk pm) - r).
Proof.
  intros H. destruct (faces_nz _ _ _ _ H) as (Nm & Ni & Nj & Nk). unfold insphere_res, insphere_normals.
  rewrite <- !unit_plane by auto. unfold face_m, face_i, face_j, face_k, tri_normal, Rsqr. ring.
Qed.
(** Sum of (area x inward distance) over the faces is three times the volume, wherever c is. *)
Lemma area_dist pi pj pk pm c : vol6 pi pj pk pm <> 0 ->
  vnorm (face_m pi pj pk pm) * plane_dist c pi (face_m pi pj pk pm) + vnorm (face_i pi pj pk pm) * plane_dist c pj (face_i pi pj pk pm)
  + vnorm (face_j pi pj pk pm) * plane_dist c pk (face_j pi pj pk pm) + vnorm (face_k pi pj pk pm) * plane_dist c pi (face_k pi pj pk pm) = vol6 pi pj pk pm.
Proof.
  intros H. destruct (faces_nz _ _ _ _ H) as (Nm & Ni & Nj & Nk).
  assert (P : forall n a, n <> vzero -> vnorm n * plane_dist c a n = vdot n (vsub c a)).
  { intros n a Hn. pose proof (vnorm_pos _ Hn). unfold plane_dist. field. lra. }
  rewrite !P by auto. unfold face_m, face_i, face_j, face_k, vol6, tri_normal. clear. vring.
Qed.
Lemma insphere_exact pi pj pk pm : vol6 pi pj pk pm <> 0 -> exists c r, insphere_res pi pj pk pm c r = 0.
Proof.
  intros H. destruct (faces_nz _ _ _ _ H) as (Nm & Ni & Nj & Nk).
  pose proof (vnorm_pos _ Nm) as Am. pose proof (vnorm_pos _ Ni) as Ai. pose proof (vnorm_pos _ Nj) as Aj. pose proof (vnorm_pos _ Nk) as Ak.
  set (am := vnorm (face_m pi pj pk pm)) in *. set (ai := vnorm (face_i pi pj pk pm)) in *. set (aj := vnorm (face_j pi pj pk pm)) in *. set (ak := vnorm (face_k pi pj pk pm)) in *.
  set (S := am + ai + aj + ak). assert (HS : 0 < S) by (unfold S; lra).
  exists (comb4 (ai / S) (aj / S) (ak / S) (am / S) pi pj pk pm), (vol6 pi pj pk pm / S).
  rewrite insphere_res_planes by auto. unfold plane_dist. fold am ai aj ak.
  assert (Z : forall n x l, l <> 0 -> vdot n x = l / S * vol6 pi pj pk pm -> vdot n x / l - vol6 pi pj pk pm / S = 0) by (intros n x l Hl ->; field; split; lra).
  assert (E : ai / S = 1 - aj / S - ak / S - am / S) by (unfold S; field; unfold S in HS; lra).
  rewrite !Z; try lra; [unfold Rsqr; ring| | | |]; rewrite ?E; unfold comb4, comb3, comb2, face_m, face_i, face_j, face_k, vol6, tri_normal; clear;
    set (tj := aj / S); set (tk := ak / S); set (tm := am / S); clearbody tj tk tm; vring.
Qed.
Theorem C31_inscribed : forall pi pj pk pm c r, vol6 pi pj pk pm <> 0 -> compute_inscribed_sphere pi pj pk pm c r ->
  plane_dist c pi (face_m pi pj pk pm) = r /\ plane_dist c pj (face_i pi pj pk pm) = r /\
  plane_dist c pk (face_j pi pj pk pm) = r /\ plane_dist c pi (face_k pi pj pk pm) = r /\
  (vnorm (face_m pi pj pk pm) + vnorm (face_i pi pj pk pm) + vnorm (face_j pi pj pk pm) + vnorm (face_k pi pj pk pm)) * r = vol6 pi pj pk pm /\
  (0 < vol6 pi pj pk pm -> 0 < r /\
     exists w1 w2 w3 w4, 0 < w1 /\ 0 < w2 /\ 0 < w3 /\ 0 < w4 /\ w1 + w2 + w3 + w4 = 1 /\ c = comb4 w1 w2 w3 w4 pi pj pk pm).
Proof.
  intros pi pj pk pm c r H L. destruct (insphere_exact _ _ _ _ H) as (c0 & r0 & E0). specialize (L c0 r0). rewrite E0 in L. rewrite insphere_res_planes in L by auto.
  set (dm := plane_dist c pi (face_m pi pj pk pm)) in *. set (di := plane_dist c pj (face_i pi pj pk pm)) in *. set (dj := plane_dist c pk (face_j pi pj pk pm)) in *. set (dk := plane_dist c pi (face_k pi pj pk pm)) in *.
  pose proof (Rle_0_sqr (dm - r)). pose proof (Rle_0_sqr (di - r)). pose proof (Rle_0_sqr (dj - r)). pose proof (Rle_0_sqr (dk - r)).
  assert (Em : dm = r) by (apply Rminus_diag_uniq, Rsqr_0_uniq; lra). assert (Ei : di = r) by (apply Rminus_diag_uniq, Rsqr_0_uniq; lra).
  assert (Ej : dj = r) by (apply Rminus_diag_uniq, Rsqr_0_uniq; lra). assert (Ek : dk = r) by (apply Rminus_diag_uniq, Rsqr_0_uniq; lra).
  repeat (split; [assumption|]).
  pose proof (area_dist pi pj pk pm c H) as AD. fold dm di dj dk in AD. rewrite Em, Ei, Ej, Ek in AD.
  split; [lra|]. intros HV. destruct (faces_nz _ _ _ _ H) as (Nm & Ni & Nj & Nk).
  pose proof (vnorm_pos _ Nm) as Am. pose proof (vnorm_pos _ Ni) as Ai. pose proof (vnorm_pos _ Nj) as Aj. pose proof (vnorm_pos _ Nk) as Ak.
  assert (Hr : 0 < r) by nra. split; auto.
  destruct (C29_tetrahedron pi pj pk pm c H) as (w1 & w2 & w3 & w4 & _ & S & C & _).
  assert (P : forall n a, n <> vzero -> vnorm n * plane_dist c a n = vdot n (vsub c a)).
  { intros n a Hn. pose proof (vnorm_pos _ Hn). unfold plane_dist. field. lra. }
  pose proof (P _ pi Nm) as Pm. pose proof (P _ pj Ni) as Pi. pose proof (P _ pk Nj) as Pj. pose proof (P _ pi Nk) as Pk.
  fold dm in Pm. fold di in Pi. fold dj in Pj. fold dk in Pk. rewrite Em in Pm. rewrite Ei in Pi. rewrite Ej in Pj. rewrite Ek in Pk.
  assert (F1 : vdot (face_i pi pj pk pm) (vsub c pj) = w1 * vol6 pi pj pk pm).
  { rewrite <- C. replace w2 with (1 - w1 - w3 - w4) by lra. unfold comb4, comb3, comb2, face_i, vol6, tri_normal. clear. vring. }
  assert (F2 : vdot (face_j pi pj pk pm) (vsub c pk) = w2 * vol6 pi pj pk pm).
  { rewrite <- C. replace w3 with (1 - w1 - w2 - w4) by lra. unfold comb4, comb3, comb2, face_j, vol6, tri_normal. clear. vring. }
  assert (F3 : vdot (face_k pi pj pk pm) (vsub c pi) = w3 * vol6 pi pj pk pm).
  { rewrite <- C. replace w1 with (1 - w2 - w3 - w4) by lra. unfold comb4, comb3, comb2, face_k, vol6, tri_normal. clear. vring. }
  assert (F4 : vdot (face_m pi pj pk pm) (vsub c pi) = w4 * vol6 pi pj pk pm).
  { rewrite <- C. replace w1 with (1 - w2 - w3 - w4) by lra. unfold comb4, comb3, comb2, face_m, vol6, tri_normal. clear. vring. }
  exists w1, w2, w3, w4. repeat split; auto; nra.
Qed.
Print Assumptions C31_inscribed.
Theorem C31_inscribed_exists : forall pi pj pk pm, vol6 pi pj pk pm <> 0 -> exists c r, compute_inscribed_sphere pi pj pk pm c r.
Proof.
  intros pi pj pk pm H. destruct (insphere_exact _ _ _ _ H) as (c & r & E). exists c, r. intros c' r'. rewrite E, insphere_res_planes by auto.
  repeat apply Rplus_le_le_0_compat; apply Rle_0_sqr.
Qed.
Print Assumptions C31_inscribed_exists.
Example C31_nonvacuous : vol6 e0 e1 e2 e3 <> 0 /\ compute_signed_volume e0 e1 e2 e3 = 1 / 6 /\ is_left_orientation e0 e2 e1 e3 = true.
Proof.
  split; [unfold vol6, tri_normal, e0, e1, e2, e3; vunf; lra|]. split; [unfold compute_signed_volume, e0, e1, e2, e3; vunf; field|].
  unfold is_left_orientation. apply Rltb_true. unfold compute_signed_volume, e0, e1, e2, e3; vunf; lra.
Qed.

(** ** C32 *)
(** the barycentric grid point i/n, j/n, k/n, m/n *)
Definition bary_point (n i j k m : Z) : list R := [IZR i / IZR n; IZR j / IZR n; IZR k / IZR n; IZR m / IZR n].
Lemma NoDup_zupto n : NoDup (zupto n).
Proof. unfold zupto. apply FinFun.Injective_map_NoDup; [intros a b; lia|apply seq_NoDup]. Qed.
Lemma NoDup_flat_map {A B} (f : A -> list B) l : NoDup l -> (forall x, In x l -> NoDup (f x)) ->
  (forall x y b, In x l -> In y l -> In b (f x) -> In b (f y) -> x = y) -> NoDup (flat_map f l).
Proof.
  induction l as [|a l IH]; intros Hn Hf Hd; cbn; [constructor|]. inversion Hn; subst.
  assert (Hl : NoDup (flat_map f l)) by (apply IH; auto; [intros; apply Hf; cbn; auto|intros x y b Hx Hy; apply Hd; cbn; auto]).
  assert (Hx : forall b, In b (f a) -> ~ In b (flat_map f l)).
  { intros b Hb Hb'. apply in_flat_map in Hb'. destruct Hb' as (y & Hy & Hby). assert (a = y) by (eapply Hd; cbn; eauto). subst; contradiction. }
  specialize (Hf a (or_introl eq_refl)). clear - Hf Hl Hx. induction (f a) as [|b fa IHf]; cbn; auto. inversion Hf; subst. constructor.
  - rewrite in_app_iff. intros [|]; [contradiction|apply (Hx b); cbn; auto].
  - apply IHf; auto. intros; apply Hx; cbn; auto.
Qed.
Lemma IZR_div_inj n a b : n <> 0%Z -> IZR a / IZR n = IZR b / IZR n -> a = b.
Proof.
  intros Hn E. apply eq_IZR. assert (IZR n <> 0) by (apply not_0_IZR; auto).
  apply (f_equal (fun t => t * IZR n)) in E. unfold Rdiv in E. rewrite !Rmult_assoc, Rinv_l in E by auto. lra.
Qed.
Lemma bary_point_inj n i j k m i' j' k' m' : n <> 0%Z -> bary_point n i j k m = bary_point n i' j' k' m' -> i = i' /\ j = j' /\ k = k' /\ m = m'.
Proof. intros Hn E. unfold bary_point in E. injection E. intros. repeat split; eapply IZR_div_inj; eauto. Qed.
Lemma samples_form N S : generate_sample_points N = Some S ->
  (2 <= N)%Z /\ S = flat_map (fun m => flat_map (fun k => map (fun j => bary_point (N - 1) (N - j - k - m - 1) j k m) (zupto (N - k - m))) (zupto (N - m))) (zupto N).
Proof. unfold generate_sample_points. destruct (Z.ltb_spec N 2); [discriminate|]. intros E; injection E as <-. auto. Qed.
Lemma flat_map_len {A B} (f : A -> list B) l : length (flat_map f l) = list_sum (map (fun a => length (f a)) l).
Proof. induction l; cbn; auto. rewrite app_length, IHl; auto. Qed.
Lemma len_zupto n : (0 <= n)%Z -> Z.of_nat (length (zupto n)) = n.
Proof. intros. unfold zupto. rewrite map_length, seq_length. lia. Qed.
Definition zsum (f : Z -> Z) (n : nat) : Z := fold_right Z.add 0%Z (map f (map Z.of_nat (seq 0 n))).
Lemma zsum_S f n : zsum f (S n) = (zsum f n + f (Z.of_nat n))%Z.
Proof.
  unfold zsum. rewrite seq_S, !map_app, fold_right_app. cbn. generalize (map f (map Z.of_nat (seq 0 n))). induction l; cbn; lia.
Qed.
Lemma flat_map_zlen {B} (f : Z -> list B) (g : Z -> Z) n : (0 <= n)%Z -> (forall x, (0 <= x < n)%Z -> Z.of_nat (length (f x)) = g x) ->
  Z.of_nat (length (flat_map f (zupto n))) = zsum g (Z.to_nat n).
Proof.
  intros Hn Hf. unfold zupto, zsum. assert (Hs : forall x, In x (map Z.of_nat (seq 0 (Z.to_nat n))) -> (0 <= x < n)%Z).
  { intros x Hx. apply (in_zupto n x). exact Hx. }
  revert Hs. generalize (map Z.of_nat (seq 0 (Z.to_nat n))). induction l as [|a l IH]; intros Hs; cbn; auto.
  rewrite app_length, Nat2Z.inj_add, IH by (intros; apply Hs; cbn; auto). rewrite Hf by (apply Hs; cbn; auto). auto.
Qed.
Lemma zsum_tri N M : (Z.of_nat M <= N)%Z -> (2 * zsum (fun k => N - k) M = Z.of_nat M * (2 * N - Z.of_nat M + 1))%Z.
Proof. induction M as [|M IH]; intros H; [reflexivity|]. rewrite zsum_S. rewrite Z.mul_add_distr_l, IH by lia. rewrite Nat2Z.inj_succ. nia. Qed.
Lemma zsum_tet N g M : (Z.of_nat M <= N)%Z -> (forall m, (0 <= m < N)%Z -> (2 * g m = (N - m) * (N - m + 1))%Z) ->
  (6 * zsum g M = N * (N + 1) * (N + 2) - (N - Z.of_nat M) * (N - Z.of_nat M + 1) * (N - Z.of_nat M + 2))%Z.
Proof.
  intros H Hg. induction M as [|M IH]; [unfold zsum; cbn; ring|]. rewrite zsum_S. rewrite Z.mul_add_distr_l, IH by lia.
  replace (6 * g (Z.of_nat M))%Z with (3 * (2 * g (Z.of_nat M)))%Z by ring. rewrite Hg by lia. rewrite Nat2Z.inj_succ. ring.
Qed.
Theorem C32_sample_points : forall N,
  ((N < 2)%Z -> generate_sample_points N = None) /\
  ((2 <= N)%Z -> exists S, generate_sample_points N = Some S /\
    NoDup S /\ (6 * Z.of_nat (length S) = N * (N + 1) * (N + 2))%Z /\
    forall w, In w S <-> exists i j k m, (0 <= i /\ 0 <= j /\ 0 <= k /\ 0 <= m /\ i + j + k + m = N - 1)%Z /\ w = bary_point (N - 1) i j k m).
Proof.
  intros N. split; intros HN.
  { unfold generate_sample_points. destruct (Z.ltb_spec N 2); [auto|lia]. }
  destruct (generate_sample_points N) as [S|] eqn:E; [|unfold generate_sample_points in E; destruct (Z.ltb_spec N 2); [lia|discriminate]].
  exists S. split; auto. apply samples_form in E. destruct E as [_ ->]. split; [|split].
  - apply NoDup_flat_map; [apply NoDup_zupto| |].
    + intros m Hm. apply NoDup_flat_map; [apply NoDup_zupto| |].
      * intros k Hk. apply FinFun.Injective_map_NoDup; [|apply NoDup_zupto]. intros j j' E. apply bary_point_inj in E; [tauto|lia].
      * intros k k' b _ _ Hb Hb'. apply in_map_iff in Hb, Hb'. destruct Hb as (j & <- & _), Hb' as (j' & E & _). apply bary_point_inj in E; [symmetry; tauto|lia].
    + intros m m' b _ _ Hb Hb'. apply in_flat_map in Hb, Hb'. destruct Hb as (k & _ & Hb), Hb' as (k' & _ & Hb'). apply in_map_iff in Hb, Hb'. destruct Hb as (j & <- & _), Hb' as (j' & E & _). apply bary_point_inj in E; [symmetry; tauto|lia].
  - rewrite (flat_map_zlen _ (fun m => zsum (fun k => N - m - k) (Z.to_nat (N - m)))%Z); [|lia|].
    2: { intros m Hm. apply (flat_map_zlen _ (fun k => N - m - k)%Z); [lia|]. intros k Hk. rewrite map_length, len_zupto; lia. }
    rewrite (zsum_tet N); [|lia|].
    2: { intros m Hm. rewrite zsum_tri by lia. rewrite Z2Nat.id by lia. ring. }
    rewrite Z2Nat.id by lia. ring.
  - intros w. rewrite in_flat_map. split.
    + intros (m & Hm & H). apply in_flat_map in H. destruct H as (k & Hk & H). apply in_map_iff in H. destruct H as (j & <- & Hj).
      rewrite in_zupto in *. do 4 eexists. split; [|reflexivity]. lia.
    + intros (i & j & k & m & H & ->). exists m. rewrite in_zupto. split; [lia|]. apply in_flat_map. exists k. rewrite in_zupto. split; [lia|].
      apply in_map_iff. exists j. rewrite in_zupto. split; [f_equal; lia|lia].
Qed.
Print Assumptions C32_sample_points.
Theorem C32_sample_weights : forall N S w, generate_sample_points N = Some S -> In w S ->
  length w = 4%nat /\ Forall (fun x => 0 <= x) w /\ fold_right Rplus 0 w = 1.
Proof.
  intros N S w E Hw. destruct (C32_sample_points N) as [A B]. destruct (Z.lt_ge_cases N 2) as [L|L]; [rewrite A in E by auto; discriminate|].
  destruct (B L) as (S' & E' & _ & _ & H). rewrite E in E'. injection E' as <-. apply H in Hw. destruct Hw as (i & j & k & m & Hi & ->).
  assert (Hn : 0 < IZR (N - 1)) by (apply IZR_lt; lia). unfold bary_point. split; auto. split.
  - assert (P : forall a, (0 <= a)%Z -> 0 <= IZR a / IZR (N - 1)) by (intros a Ha; apply Rmult_le_pos; [apply IZR_le; auto|apply Rlt_le, Rinv_0_lt_compat; auto]).
    apply Forall_cons; [apply P; lia|]. apply Forall_cons; [apply P; lia|]. apply Forall_cons; [apply P; lia|]. apply Forall_cons; [apply P; lia|]. apply Forall_nil.
  - cbn. replace (N - 1)%Z with (i + j + k + m)%Z in * by lia. rewrite !plus_IZR in *. field. lra.
Qed.
Print Assumptions C32_sample_weights.
(** The "interior" filter is wrong: for every N each kept point lies on the surface (one weight is zero), *)
Theorem C32_interior_all_on_surface_refuted : forall N S w, generate_interior_sample_points N = Some S -> In w S -> In 0 w.
Proof.
  intros N S w E Hw. unfold generate_interior_sample_points in E. destruct (generate_sample_points N) as [S0|] eqn:E0; [|discriminate]. injection E as <-.
  apply filter_In in Hw. destruct Hw as [Hw C]. destruct (C32_sample_weights N S0 w E0 Hw) as [L _]. apply Z.eqb_eq in C. unfold count_nonzero in C.
  destruct (in_dec Req_EM_T 0 w) as [|N0]; auto. exfalso.
  assert (filter (fun x => negb (Reqb x 0)) w = w) as Ew.
  { clear - N0. induction w as [|x w IH]; cbn; auto. destruct (Reqb_spec x 0) as [->|]; cbn; [exfalso; apply N0; cbn; auto|]. f_equal. apply IH. intros H; apply N0; cbn; auto. }
  rewrite Ew, L in C. lia.
Qed.
Print Assumptions C32_interior_all_on_surface_refuted.
(** and the strictly interior points are dropped. *)
Theorem C32_interior_dropped_refuted : forall N, (5 <= N)%Z -> exists S S' w, generate_sample_points N = Some S /\ generate_interior_sample_points N = Some S' /\
  In w S /\ Forall (fun x => 0 < x) w /\ ~ In w S'.
Proof.
  intros N HN. destruct (C32_sample_points N) as [_ B]. destruct (B ltac:(lia)) as (S & E & _ & _ & H).
  exists S, (filter (fun row => (count_nonzero row =? 3)%Z) S), (bary_point (N - 1) (N - 4) 1 1 1). split; auto.
  assert (Ei : generate_interior_sample_points N = Some (filter (fun row => (count_nonzero row =? 3)%Z) S)) by (unfold generate_interior_sample_points; rewrite E; auto).
  split; auto. assert (Hn : 0 < IZR (N - 1)) by (apply IZR_lt; lia).
  assert (P : Forall (fun x => 0 < x) (bary_point (N - 1) (N - 4) 1 1 1)) by (repeat apply Forall_cons; try apply Forall_nil; apply Rdiv_lt_0_compat; auto; apply IZR_lt; lia).
  split; [apply H; do 4 eexists; split; [|reflexivity]; lia|]. split; auto.
  intros Hin. apply (C32_interior_all_on_surface_refuted N _ _ Ei) in Hin. rewrite Forall_forall in P. specialize (P 0 Hin). lra.
Qed.
Print Assumptions C32_interior_dropped_refuted.
(** what is returned: exactly the sample points in the relative interior of a face *)
Theorem C32_interior_partial : forall N S, generate_interior_sample_points N = Some S ->
  forall w, In w S <-> exists S0, generate_sample_points N = Some S0 /\ In w S0 /\ (length (filter (fun x => if Req_EM_T x 0 then true else false) w) = 1)%nat.
Proof.
  intros N S E w. unfold generate_interior_sample_points in E. destruct (generate_sample_points N) as [S0|] eqn:E0; [|discriminate]. injection E as <-.
  rewrite filter_In. split.
  - intros [Hw C]. exists S0. split; auto. split; auto. destruct (C32_sample_weights N S0 w E0 Hw) as [L _]. apply Z.eqb_eq in C. unfold count_nonzero in C.
    assert (G : forall l, (length (filter (fun x => negb (Reqb x 0)) l) + length (filter (fun x => if Req_EM_T x 0 then true else false) l) = length l)%nat).
    { induction l as [|x l IH]; cbn; auto. unfold Reqb in *. destruct (Req_EM_T x 0); cbn; lia. }
    specialize (G w). lia.
  - intros (S1 & E1 & Hw & C). injection E1 as <-. split; auto. destruct (C32_sample_weights N S0 w E0 Hw) as [L _]. apply Z.eqb_eq. unfold count_nonzero.
    assert (G : forall l, (length (filter (fun x => negb (Reqb x 0)) l) + length (filter (fun x => if Req_EM_T x 0 then true else false) l) = length l)%nat).
    { induction l as [|x l IH]; cbn; auto. unfold Reqb in *. destruct (Req_EM_T x 0); cbn; lia. }
    specialize (G w). lia.
Qed.
Print Assumptions C32_interior_partial.
Example C32_nonvacuous : exists S, generate_sample_points 5 = Some S /\ Z.of_nat (length S) = 35%Z.
Proof. eexists. split; [reflexivity|]. reflexivity. Qed.
