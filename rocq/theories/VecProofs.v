(** Proofs about vector3 / coordsys / matrix3 rotations *)
From Verif Require Import Base QuatModel QuatProofs VecModel.
Open Scope R_scope.

(** ** coordsys *)
Lemma xform_inverse_l X p : is_unit (xq X) -> xform_point (x_inverse X) (xform_point X p) = p.
Proof.
  intros H. unfold xform_point, x_inverse; cbn [xq xr].
  rewrite q_rotate_add, q_rotate_inv_l, q_rotate_opp by auto. vring.
Qed.
Lemma xform_inverse_r X p : is_unit (xq X) -> xform_point X (xform_point (x_inverse X) p) = p.
Proof.
  intros H. unfold xform_point, x_inverse; cbn [xq xr].
  rewrite q_rotate_add, !q_rotate_inv_r by auto. vring.
Qed.
Lemma xform_concat B A p : is_unit (xq B) -> is_unit (xq A) ->
  xform_point (x_concat B A) p = xform_point B (xform_point A p).
Proof.
  intros HB HA. unfold xform_point, x_concat; cbn [xq xr].
  rewrite q_unit_of_unit by (apply is_unit_prod; auto).
  rewrite q_rotate_prod, q_rotate_add. vring.
Qed.
Lemma xform_from_to A B p : is_unit (xq A) -> is_unit (xq B) ->
  xform_point B (xform_point (x_from_to A B) p) = xform_point A p.
Proof.
  intros HA HB. unfold xform_point, x_from_to; cbn [xq xr].
  rewrite q_unit_of_unit by (apply is_unit_prod; auto using is_unit_conj).
  rewrite q_rotate_prod, q_rotate_add, !q_rotate_inv_r by auto. vring.
Qed.
Lemma x_units A B : is_unit (xq A) -> is_unit (xq (x_inverse A)) /\ is_unit (xq (x_concat A B)) /\ is_unit (xq (x_from_to A B)).
Proof.
  intros H; cbn. auto using is_unit_conj, q_unit_is_unit.
Qed.

(** ** orthonormal frame *)
Lemma vdiv_norm_unit n : n <> vzero -> vdot (vdiv n (vnorm n)) (vdiv n (vnorm n)) = 1.
Proof.
  intros H. pose proof (vnorm_pos n H) as Hp. pose proof (vnorm_sqr n) as Hs.
  set (l := vnorm n) in *. unfold vdot, vdiv in *; cbn.
  replace (_ + _ + _) with ((vx n * vx n + vy n * vy n + vz n * vz n) / (l * l)) by (field; lra).
  rewrite <- Hs. field; lra.
Qed.
Lemma orthonormal_spec n0 : n0 <> vzero ->
  exists t b n, make_orthonormal_vectors n0 = Some (t, b, n) /\
    n = vdiv n0 (vnorm n0) /\
    vdot t t = 1 /\ vdot b b = 1 /\ vdot n n = 1 /\
    vdot t b = 0 /\ vdot b n = 0 /\ vdot n t = 0 /\ vcross t b = n.
Proof.
  intros Hn. pose proof (vdiv_norm_unit n0 Hn) as Hu. pose proof (vnorm_pos n0 Hn) as Hp.
  unfold make_orthonormal_vectors. destruct (Reqb_spec (vnorm n0) 0) as [E|_]; [lra|].
  set (n := vdiv n0 (vnorm n0)) in *.
  assert (K : forall t, vdot t t = 1 -> vdot n t * vdot n t <= 1/3 -> exists t' b n',
     (let b0 := vcross n t in if Reqb (vnorm b0) 0 then None
       else Some (vcross (vdiv b0 (vnorm b0)) n, vdiv b0 (vnorm b0), n)) = Some (t', b, n') /\
     n' = n /\ vdot t' t' = 1 /\ vdot b b = 1 /\ vdot n' n' = 1 /\ vdot t' b = 0 /\ vdot b n' = 0 /\ vdot n' t' = 0 /\ vcross t' b = n').
  { intros t Ht Hs. cbv zeta.
    assert (Hb0 : vcross n t <> vzero).
    { intros Z. assert (vdot (vcross n t) (vcross n t) = vdot n n * vdot t t - vdot n t * vdot n t) as L by vring.
      rewrite Z, Hu, Ht in L. vunf. lra. }
    pose proof (vnorm_pos _ Hb0) as Hbp.
    destruct (Reqb_spec (vnorm (vcross n t)) 0) as [E|_]; [lra|].
    pose proof (vdiv_norm_unit _ Hb0) as Hbu.
    assert (Hbn : vdot (vdiv (vcross n t) (vnorm (vcross n t))) n = 0).
    { set (l := vnorm (vcross n t)) in *. destruct n as [a b c], t as [d e f]; vunf. field; lra. }
    set (b := vdiv (vcross n t) (vnorm (vcross n t))) in *.
    do 3 eexists. split; [reflexivity|]. repeat split; auto.
    - replace (vdot (vcross b n) (vcross b n)) with (vdot b b * vdot n n - vdot b n * vdot b n) by (clearbody b n; vring).
      rewrite Hbu, Hu, Hbn; ring.
    - clearbody b n; vring.
    - clearbody b n; vring.
    - transitivity (vsub (vscale (vdot b b) n) (vscale (vdot b n) b)).
      + clearbody b n; vring.
      + rewrite Hbu, Hbn. clearbody b n; vring. }
  pose proof (Rsqr_abs (vx n)) as Ax. pose proof (Rsqr_abs (vy n)) as Ay. pose proof (Rsqr_abs (vz n)) as Az.
  pose proof (Rabs_pos (vx n)) as Px. pose proof (Rabs_pos (vy n)) as Py. pose proof (Rabs_pos (vz n)) as Pz.
  unfold Rsqr in *.
  assert (S : Rabs (vx n) * Rabs (vx n) + Rabs (vy n) * Rabs (vy n) + Rabs (vz n) * Rabs (vz n) = 1).
  { rewrite <- Ax, <- Ay, <- Az. exact Hu. }
  destruct (Rleb_spec (Rabs (vx n)) (Rabs (vy n))); destruct (Rleb_spec (Rabs (vx n)) (Rabs (vz n)));
  destruct (Rleb_spec (Rabs (vy n)) (Rabs (vx n))); destruct (Rleb_spec (Rabs (vy n)) (Rabs (vz n)));
  destruct (Rleb_spec (Rabs (vz n)) (Rabs (vx n))); destruct (Rleb_spec (Rabs (vz n)) (Rabs (vy n)));
  cbn [andb]; try lra;
  (apply K; [unfold v3_i, v3_j, v3_k, vdot; cbn; ring|]);
  unfold v3_i, v3_j, v3_k, vdot; cbn [vx vy vz];
  match goal with |- (?e) * _ <= _ =>
    first [ replace e with (vx n) by ring | replace e with (vy n) by ring | replace e with (vz n) by ring ] end;
  rewrite ?Ax, ?Ay, ?Az; nra.
Qed.

Lemma orthonormal_zero : make_orthonormal_vectors vzero = None.
Proof.
  unfold make_orthonormal_vectors. destruct (Reqb_spec (vnorm vzero) 0) as [|E]; auto.
  exfalso; apply E, vnorm_zero_iff; reflexivity.
Qed.

(** ** lexicographic comparison *)
Definition lexlt (a b : vec3) : Prop :=
  vx a < vx b \/ (vx a = vx b /\ (vy a < vy b \/ (vy a = vy b /\ vz a < vz b))).
Lemma v3_less_iff a b : v3_less a b = true <-> lexlt a b.
Proof.
  unfold v3_less, lexlt.
  destruct (Rltb_spec (vx b) (vx a)); destruct (Rltb_spec (vx a) (vx b));
  destruct (Rltb_spec (vy b) (vy a)); destruct (Rltb_spec (vy a) (vy b));
  destruct (Rltb_spec (vz b) (vz a)); destruct (Rltb_spec (vz a) (vz b));
  split; intros; try discriminate; try reflexivity; lra.
Qed.
Lemma v3_greather_less a b : v3_greather a b = v3_less b a.
Proof.
  unfold v3_less, v3_greather.
  repeat match goal with |- context [Rltb ?x ?y] => destruct (Rltb_spec x y) end; try reflexivity; lra.
Qed.
Lemma lexlt_total a b : lexlt a b \/ lexlt b a \/ a = b.
Proof.
  unfold lexlt.
  destruct (Rtotal_order (vx a) (vx b)) as [|[|]]; try lra.
  destruct (Rtotal_order (vy a) (vy b)) as [|[|]]; try lra.
  destruct (Rtotal_order (vz a) (vz b)) as [|[|]]; try lra.
  right; right; apply vec3_eq; auto.
Qed.
Lemma lexlt_irrefl a : ~ lexlt a a.
Proof. unfold lexlt; lra. Qed.
Lemma lexlt_trans a b c : lexlt a b -> lexlt b c -> lexlt a c.
Proof. unfold lexlt; lra. Qed.

(** ** max_abs_component *)
Definition vnth (a : vec3) (i : nat) : R := match i with O => vx a | S O => vy a | _ => vz a end.
Lemma max_abs_component_spec a :
  (v3_max_abs_component a < 3)%nat /\ forall j, (j < 3)%nat -> Rabs (vnth a j) <= Rabs (vnth a (v3_max_abs_component a)).
Proof.
  unfold v3_max_abs_component.
  destruct (Rltb_spec (Rabs (vy a)) (Rabs (vx a))), (Rltb_spec (Rabs (vz a)) (Rabs (vx a))), (Rltb_spec (Rabs (vz a)) (Rabs (vy a))); cbn [andb];
  (split; [lia|]; intros [|[|[|j]]] Hj; try lia; cbn [vnth]; lra).
Qed.

(** ** ortonormalize *)
Lemma ortonormalize_spec A :
  vcross (mrow0 A) (mrow1 A) <> vzero ->
  let Q := fst (m3_ortonormalize A) in
  is_rotation Q /\
  (exists l, 0 < l /\ mrow0 A = vscale l (mrow0 Q)) /\
  (exists a b, 0 < b /\ mrow1 A = vadd (vscale a (mrow0 Q)) (vscale b (mrow1 Q))).
Proof.
  intros Hc.
  assert (H0 : mrow0 A <> vzero) by (intros Z; apply Hc; rewrite Z; vring).
  pose proof (vnorm_pos _ H0) as P0. pose proof (vdiv_norm_unit _ H0) as U0.
  unfold m3_ortonormalize. cbv zeta. destruct (Rltb_spec 0 (vnorm (mrow0 A))) as [_|]; [|contradiction].
  assert (E0 : mrow0 A = vscale (vnorm (mrow0 A)) (vdiv (mrow0 A) (vnorm (mrow0 A)))).
  { set (l := vnorm (mrow0 A)) in *. apply vec3_eq; cbn; field; lra. }
  set (r0 := vdiv (mrow0 A) (vnorm (mrow0 A))) in *.
  set (d := vsub (mrow1 A) (vscale (vdot r0 (mrow1 A)) r0)).
  assert (Hd : d <> vzero).
  { intros Z. apply Hc.
    assert (E1 : mrow1 A = vadd d (vscale (vdot r0 (mrow1 A)) r0)).
    { unfold d. apply vec3_eq; cbn; ring. }
    rewrite E0, E1, Z. clearbody r0. generalize (vdot r0 (mrow1 A)) (vnorm (mrow0 A)); intros. vring. }
  assert (D0 : vdot r0 d = 0).
  { transitivity (vdot r0 (mrow1 A) * (1 - vdot r0 r0)).
    - unfold d. generalize (mrow1 A). clearbody r0. vring.
    - rewrite U0; ring. }
  pose proof (vnorm_pos _ Hd) as P1. pose proof (vdiv_norm_unit _ Hd) as U1.
  destruct (Rltb_spec 0 (vnorm d)) as [_|]; [|contradiction].
  assert (E1 : mrow1 A = vadd (vscale (vdot r0 (mrow1 A)) r0) (vscale (vnorm d) (vdiv d (vnorm d)))).
  { set (l := vnorm d) in *. transitivity (vadd (vscale (vdot r0 (mrow1 A)) r0) d).
    - unfold d; apply vec3_eq; cbn; ring.
    - clearbody d; apply vec3_eq; cbn; field; lra. }
  assert (D1 : vdot r0 (vdiv d (vnorm d)) = 0).
  { set (l := vnorm d) in *. replace (vdot r0 (vdiv d l)) with (vdot r0 d / l); [rewrite D0; field; lra|].
    clearbody d r0. unfold vdot, vdiv; cbn. field; lra. }
  set (r1 := vdiv d (vnorm d)) in *.
  cbn [fst]. split; [|split].
  - assert (T : forall u v, vdot u u = 1 -> vdot v v = 1 -> vdot u v = 0 ->
        is_rotation (let w := vcross u v in mkM (vx u) (vy u) (vz u) (vx v) (vy v) (vz v) (vx w) (vy w) (vz w))).
    { clear. intros u v Hu Hv Huv.
      assert (W : vdot (vcross u v) (vcross u v) = 1).
      { transitivity (vdot u u * vdot v v - vdot u v * vdot u v); [vring|rewrite Hu, Hv, Huv; ring]. }
      split.
      - apply mat3_eq; unfold mmul, mT, mid; cbn [m00 m01 m02 m10 m11 m12 m20 m21 m22];
        first [ exact Hu | exact Hv | exact Huv | exact W
              | rewrite <- Huv; destruct u, v; vunf; ring
              | destruct u, v; vunf; ring ].
      - transitivity (vdot (vcross u v) (vcross u v)); [destruct u, v; vunf; ring|exact W]. }
    apply T; auto.
  - exists (vnorm (mrow0 A)); split; [exact P0|exact E0].
  - exists (vdot r0 (mrow1 A)), (vnorm d); split; [exact P1|exact E1].
Qed.
