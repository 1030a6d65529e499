(** A stone of an arch: in the plane a symmetric trapezium with half-height y0 at x = x0 and y1 at x = x1, extruded from z = 0 to z = -d. *)
From Verif Require Import Base QuatModel VecModel BvhModel GridModel VolModel RigidTypes MassModel MassSpec MassProofs Prop_Mass SurfModel SurfSpec Prop_Surface SceneModel SceneSpec SceneMesh SceneProofs SceneShape.
From Coq Require Import Permutation.
Open Scope R_scope.

Section Wedge.
Variables x0 x1 y0 y1 d : R.
Hypothesis Hx : x0 < x1.
Hypothesis Hy0 : 0 < y0.
Hypothesis Hy1 : 0 < y1.
Hypothesis Hd : 0 < d.
Definition wedge : list vec3 * list tri :=
  create_cuboid (mkV x0 (- y0) 0) (mkV x1 (- y1) 0) (mkV x1 y1 0) (mkV x0 y0 0) (mkV x0 (- y0) (- d)) (mkV x1 (- y1) (- d)) (mkV x1 y1 (- d)) (mkV x0 y0 (- d)).
Definition wedgeV : list vec3 := fst wedge.
Definition wedgeT : list tri := snd wedge.
Lemma wedge_vats : vat wedgeV 0 = mkV x0 (- y0) 0 /\ vat wedgeV 1 = mkV x1 (- y1) 0 /\ vat wedgeV 2 = mkV x1 y1 0 /\ vat wedgeV 3 = mkV x0 y0 0 /\
  vat wedgeV 4 = mkV x0 (- y0) (- d) /\ vat wedgeV 5 = mkV x1 (- y1) (- d) /\ vat wedgeV 6 = mkV x1 y1 (- d) /\ vat wedgeV 7 = mkV x0 y0 (- d).
Proof. repeat split. Qed.
Lemma wedge_nodup : NoDup wedgeV.
Proof.
  unfold wedgeV, wedge, create_cuboid. cbn [fst]. repeat (constructor; [cbn [In]; intros HH; repeat (destruct HH as [HH|HH]; [injection HH; intros; lra|]); exact HH|]). constructor.
Qed.
Lemma wedge_plain : plain wedgeV wedgeT.
Proof.
  intros i j k H. replace (length wedgeV) with 8%nat by reflexivity. cbn in H. repeat (destruct H as [E|H]; [injection E as <- <- <-; lia|]). destruct H.
Qed.
Lemma wedge_sum f : mesh_sum f wedgeV wedgeT =
  let v := vat wedgeV in
  f (v 0%Z) (v 1%Z) (v 2%Z) + (f (v 0%Z) (v 2%Z) (v 3%Z) + (f (v 4%Z) (v 7%Z) (v 6%Z) + (f (v 4%Z) (v 6%Z) (v 5%Z) + (f (v 4%Z) (v 0%Z) (v 3%Z) + (f (v 4%Z) (v 3%Z) (v 7%Z) +
  (f (v 1%Z) (v 5%Z) (v 6%Z) + (f (v 1%Z) (v 6%Z) (v 2%Z) + (f (v 7%Z) (v 3%Z) (v 2%Z) + (f (v 7%Z) (v 2%Z) (v 6%Z) + (f (v 5%Z) (v 1%Z) (v 0%Z) + (f (v 5%Z) (v 0%Z) (v 4%Z) + 0))))))))))).
Proof. reflexivity. Qed.
Ltac bx := rewrite wedge_sum; cbv zeta; destruct wedge_vats as (-> & -> & -> & -> & -> & -> & -> & ->);
  unfold tet_volume, tet_first, tet_second, tet_det, vdot, vcross, comp; cbn [vx vy vz]; field.
Definition wedge_vol : R := (y0 + y1) * (x1 - x0) * d.
(** the centre of mass and the mean squares of the coordinates *)
Definition wedge_cx : R := (x0 * (2 * y0 + y1) + x1 * (y0 + 2 * y1)) / (3 * (y0 + y1)).
Definition wedge_sq (i : nat) : R :=
  match i with
  | O => (x0 * x0 * (3 * y0 + y1) + 2 * x0 * x1 * (y0 + y1) + x1 * x1 * (y0 + 3 * y1)) / (6 * (y0 + y1))
  | 1%nat => (y0 * y0 + y1 * y1) / 6
  | _ => d * d / 3
  end.
Lemma wedge_volume : volume wedgeV wedgeT = wedge_vol.
Proof. unfold volume, wedge_vol. bx. Qed.
Lemma wedge_first i : (i < 3)%nat -> first_moment wedgeV wedgeT i = wedge_vol * match i with O => wedge_cx | 1%nat => 0 | _ => - d / 2 end.
Proof. intros Hi. unfold first_moment, wedge_vol, wedge_cx. destruct i as [|[|[|i]]]; try lia; bx; lra. Qed.
Lemma wedge_second i j : (i < 3)%nat -> (j < 3)%nat -> i <> j ->
  second_moment wedgeV wedgeT i j = wedge_vol * match i, j with O, 2%nat | 2%nat, O => - d / 2 * wedge_cx | _, _ => 0 end.
Proof. intros Hi Hj Hij. unfold second_moment, wedge_vol, wedge_cx. destruct i as [|[|[|i]]]; try lia; destruct j as [|[|[|j]]]; try lia; bx; lra. Qed.
Lemma wedge_square i : (i < 3)%nat -> second_moment wedgeV wedgeT i i = wedge_vol * wedge_sq i.
Proof. intros Hi. unfold second_moment, wedge_vol, wedge_sq. destruct i as [|[|[|i]]]; try lia; bx; lra. Qed.
Lemma wedge_closed : closed_mesh wedgeT.
Proof. apply (proj2 C37_box_cuboid (mkV x0 (- y0) 0) (mkV x1 (- y1) 0) (mkV x1 y1 0) (mkV x0 y0 0) (mkV x0 (- y0) (- d)) (mkV x1 (- y1) (- d)) (mkV x1 y1 (- d)) (mkV x0 y0 (- d))). Qed.
Lemma wedge_cov : exists d', covariance wedgeV = mdiag d'.
Proof.
  assert (M0 : forall V, length V = 8%nat -> vmean V = vdiv (fold_right vadd vzero V) 8). { intros V E. unfold vmean. rewrite E. apply (f_equal2 vdiv); [reflexivity|]. cbn [INR]. ring. }
  set (m := mkV ((x0 + x1) / 2) 0 (- d / 2)).
  assert (C1 : centred wedgeV = map (fun p => vsub p m) wedgeV).
  { unfold centred. rewrite M0 by reflexivity. apply map_ext. intros p. apply (f_equal2 vsub); [reflexivity|].
    unfold m, wedgeV, wedge, create_cuboid, vdiv, vadd, vzero; cbn [fst fold_right vx vy vz]. apply (f_equal3 mkV); field. }
  assert (C2 : centred (centred wedgeV) = map (fun p => vsub p m) wedgeV).
  { rewrite C1. set (W := map _ wedgeV). assert (EM : vmean W = vzero). { rewrite M0 by reflexivity. unfold W, m, wedgeV, wedge, create_cuboid, vdiv, vadd, vsub, vzero; cbn [fst map fold_right vx vy vz]. apply (f_equal3 mkV); field. }
    unfold centred. rewrite EM. transitivity (map (fun x : vec3 => x) W); [|apply map_id]. apply map_ext. intros [x y z]. unfold vsub, vzero; cbn. apply (f_equal3 mkV); ring. }
  eexists. unfold covariance. rewrite !C2. unfold wedgeV, wedge, create_cuboid, m. unfold mdiag. cbn [fst map rsum fold_right comp vx vy vz length vsub].
  match goal with |- mkM ?a ?b ?c ?d0 ?e ?f ?g ?h0 ?i = _ => replace b with 0 by (unfold Rdiv; ring); replace c with 0 by (unfold Rdiv; field; cbn [INR]; lra); replace d0 with 0 by (unfold Rdiv; ring);
    replace f with 0 by (unfold Rdiv; ring); replace g with 0 by (unfold Rdiv; field; cbn [INR]; lra); replace h0 with 0 by (unfold Rdiv; ring) end.
  match goal with |- mkM ?a _ _ _ ?e _ _ _ ?i = _ => instantiate (1 := mkV a e i) end. reflexivity.
Qed.
Lemma wedge_proper : proper_triangles wedgeV wedgeT.
Proof.
  intros i j k H. cbn in H. destruct wedge_vats as (E0 & E1 & E2 & E3 & E4 & E5 & E6 & E7).
  assert (N1 : 0 < (x1 - x0) * y0) by (apply Rmult_lt_0_compat; lra). assert (N2 : 0 < (x1 - x0) * y1) by (apply Rmult_lt_0_compat; lra). assert (N3 : 0 < (x1 - x0) * d) by (apply Rmult_lt_0_compat; lra).
  assert (N4 : 0 < y0 * d) by (apply Rmult_lt_0_compat; lra). assert (N5 : 0 < y1 * d) by (apply Rmult_lt_0_compat; lra).
  repeat (destruct H as [E|H]; [injection E as <- <- <-; rewrite ?E0, ?E1, ?E2, ?E3, ?E4, ?E5, ?E6, ?E7; unfold vcross, vsub, vzero; cbn [vx vy vz]; intros Z; injection Z as Z0 Z1 Z2; lra|]). destruct H.
Qed.
Lemma wedge_vol_pos : 0 < wedge_vol.
Proof. unfold wedge_vol. apply Rmult_lt_0_compat; [apply Rmult_lt_0_compat|]; lra. Qed.
Definition clear_wedge : Prop := tiny < wedge_vol /\ not_tiny wedge_cx /\ not_tiny (- d / 2).
Lemma wedge_good : clear_wedge -> good_stone wedgeV wedgeT.
Proof.
  intros (B0 & B1 & B2). pose proof wedge_vol_pos as PV.
  split; [apply wedge_plain|]. split; [apply wedge_nodup|]. split; [cbn; lia|]. split; [apply wedge_closed|]. split; [apply wedge_proper|].
  split; [rewrite wedge_volume; exact PV|]. split; [apply wedge_cov|].
  assert (Q : forall t, wedge_vol * t / wedge_vol = t) by (intros; field; lra).
  intros i j Hi Hj Hij. rewrite wedge_second, !wedge_first, !wedge_volume, !Q by auto.
  destruct i as [|[|[|i]]]; try lia; destruct j as [|[|[|j]]]; try lia; try (left; split; ring); right; (split; [ring|auto]).
Qed.
Lemma wedge_star : star wedgeV wedgeT (mkV x0 (- y0) (- d)).
Proof.
  intros i j k H. cbn in H. destruct wedge_vats as (E0 & E1 & E2 & E3 & E4 & E5 & E6 & E7).
  assert (N1 : 0 < (x1 - x0) * y0 * d) by (apply Rmult_lt_0_compat; [apply Rmult_lt_0_compat|]; lra).
  assert (N2 : 0 < (x1 - x0) * y1 * d) by (apply Rmult_lt_0_compat; [apply Rmult_lt_0_compat|]; lra).
  repeat (destruct H as [E|H]; [injection E as <- <- <-; rewrite ?E0, ?E1, ?E2, ?E3, ?E4, ?E5, ?E6, ?E7; unfold tet_det, vdot, vcross, vsub; cbn [vx vy vz];
    match goal with |- 0 <= ?x => first [replace x with 0 by ring; lra | replace x with (2 * ((x1 - x0) * y0 * d)) by ring; lra | replace x with (2 * ((x1 - x0) * y1 * d)) by ring; lra ] end|]). destruct H.
Qed.
(** large enough for its mass, its centre of mass and its moments of inertia to be kept *)
Definition big_wedge : Prop :=
  clear_wedge /\ tiny < wedge_vol * (wedge_sq 0 + wedge_sq 1) /\ tiny < wedge_vol * (wedge_sq 0 + wedge_sq 2) /\ tiny < wedge_vol * (wedge_sq 1 + wedge_sq 2).
Lemma wedge_counted : big_wedge -> counted_stone wedgeV wedgeT.
Proof.
  intros ((B0 & BX & BZ) & B1 & B2 & B3). pose proof wedge_vol_pos as PV.
  assert (Q : forall t, wedge_vol * t / wedge_vol = t) by (intros; field; lra).
  split; [rewrite wedge_volume; auto|]. split.
  { intros i Hi. rewrite wedge_volume, wedge_first, Q by auto. destruct i as [|[|[|i]]]; try lia; [exact BX|left; reflexivity|exact BZ]. }
  assert (CX : 0 < wedge_sq 0 - wedge_cx * wedge_cx).
  { replace (wedge_sq 0 - wedge_cx * wedge_cx) with ((x1 - x0) * (x1 - x0) * (y0 * y0 + 4 * y0 * y1 + y1 * y1) / (18 * ((y0 + y1) * (y0 + y1)))) by (unfold wedge_sq, wedge_cx; field; lra).
    apply Rdiv_lt_0_compat; [apply Rmult_lt_0_compat; nra|nra]. }
  assert (CY : 0 < wedge_sq 1) by (unfold wedge_sq; nra). assert (CZ : 0 < wedge_sq 2 - - d / 2 * (- d / 2)) by (unfold wedge_sq; nra).
  split.
  - intros i j Hi Hj Hij. rewrite !wedge_square, !wedge_first, wedge_volume by auto.
    assert (F : forall f g s t, 0 < s - f * f -> 0 < t - g * g -> 0 < wedge_vol * s + wedge_vol * t - (wedge_vol * f * (wedge_vol * f) + wedge_vol * g * (wedge_vol * g)) / wedge_vol).
    { intros f g s t Hf Hg. replace (wedge_vol * s + wedge_vol * t - (wedge_vol * f * (wedge_vol * f) + wedge_vol * g * (wedge_vol * g)) / wedge_vol) with (wedge_vol * ((s - f * f) + (t - g * g))) by (field; lra).
      apply Rmult_lt_0_compat; lra. }
    split; [rewrite <- Rmult_plus_distr_l|apply F]; destruct i as [|[|[|i]]]; try lia; destruct j as [|[|[|j]]]; try lia; lra.
  - exists (mkV x0 (- y0) (- d)). split; [unfold wedgeV, wedge, create_cuboid; cbn; tauto|apply wedge_star].
Qed.
End Wedge.
