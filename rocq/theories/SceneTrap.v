(** The brick of a tower wall as a stone: half-width a at the front (z = d/2), half-width b at the back (z = -d/2), height h. *)
From Verif Require Import Base QuatModel VecModel BvhModel GridModel VolModel RigidTypes MassModel MassSpec MassProofs Prop_Mass SurfModel SurfSpec Prop_Surface SceneModel SceneSpec SceneMesh SceneProofs SceneShape.
From Coq Require Import Permutation.
Open Scope R_scope.

Section Trap.
Variables a b h d : R.
Hypothesis Ha : 0 < a.
Hypothesis Hb : 0 < b.
Hypothesis Hh : 0 < h.
Hypothesis Hd : 0 < d.
Definition trap : list vec3 * list tri :=
  create_cuboid (mkV (- a) (- h / 2) (d / 2)) (mkV a (- h / 2) (d / 2)) (mkV a (h / 2) (d / 2)) (mkV (- a) (h / 2) (d / 2))
                (mkV (- b) (- h / 2) (- d / 2)) (mkV b (- h / 2) (- d / 2)) (mkV b (h / 2) (- d / 2)) (mkV (- b) (h / 2) (- d / 2)).
Definition trapV : list vec3 := fst trap.
Definition trapT : list tri := snd trap.
Lemma trap_vats : vat trapV 0 = mkV (- a) (- h / 2) (d / 2) /\ vat trapV 1 = mkV a (- h / 2) (d / 2) /\ vat trapV 2 = mkV a (h / 2) (d / 2) /\ vat trapV 3 = mkV (- a) (h / 2) (d / 2) /\
  vat trapV 4 = mkV (- b) (- h / 2) (- d / 2) /\ vat trapV 5 = mkV b (- h / 2) (- d / 2) /\ vat trapV 6 = mkV b (h / 2) (- d / 2) /\ vat trapV 7 = mkV (- b) (h / 2) (- d / 2).
Proof. repeat split. Qed.
Lemma trap_nodup : NoDup trapV.
Proof.
  unfold trapV, trap, create_cuboid. cbn [fst]. repeat (constructor; [cbn [In]; intros HH; repeat (destruct HH as [HH|HH]; [injection HH; intros; lra|]); exact HH|]). constructor.
Qed.
Lemma trap_plain : plain trapV trapT.
Proof.
  intros i j k H. replace (length trapV) with 8%nat by reflexivity. cbn in H. repeat (destruct H as [E|H]; [injection E as <- <- <-; lia|]). destruct H.
Qed.
Lemma trap_sum f : mesh_sum f trapV trapT =
  let v := vat trapV in
  f (v 0%Z) (v 1%Z) (v 2%Z) + (f (v 0%Z) (v 2%Z) (v 3%Z) + (f (v 4%Z) (v 7%Z) (v 6%Z) + (f (v 4%Z) (v 6%Z) (v 5%Z) + (f (v 4%Z) (v 0%Z) (v 3%Z) + (f (v 4%Z) (v 3%Z) (v 7%Z) +
  (f (v 1%Z) (v 5%Z) (v 6%Z) + (f (v 1%Z) (v 6%Z) (v 2%Z) + (f (v 7%Z) (v 3%Z) (v 2%Z) + (f (v 7%Z) (v 2%Z) (v 6%Z) + (f (v 5%Z) (v 1%Z) (v 0%Z) + (f (v 5%Z) (v 0%Z) (v 4%Z) + 0))))))))))).
Proof. reflexivity. Qed.
Ltac bx := rewrite trap_sum; cbv zeta; destruct trap_vats as (-> & -> & -> & -> & -> & -> & -> & ->);
  unfold tet_volume, tet_first, tet_second, tet_det, vdot, vcross, comp; cbn [vx vy vz]; field.
Lemma trap_volume : volume trapV trapT = (a + b) * h * d.
Proof. unfold volume. bx. Qed.
Lemma trap_first i : (i < 3)%nat -> first_moment trapV trapT i = match i with 2%nat => h * (a - b) * (d * d) / 6 | _ => 0 end.
Proof. intros Hi. unfold first_moment. destruct i as [|[|[|i]]]; try lia; bx. Qed.
Lemma trap_second i j : (i < 3)%nat -> (j < 3)%nat -> i <> j -> second_moment trapV trapT i j = 0.
Proof. intros Hi Hj Hij. unfold second_moment. destruct i as [|[|[|i]]]; try lia; destruct j as [|[|[|j]]]; try lia; bx. Qed.
Lemma trap_square i : (i < 3)%nat -> second_moment trapV trapT i i = (a + b) * h * d * match i with O => (a * a + b * b) / 6 | 1%nat => h * h / 12 | _ => d * d / 12 end.
Proof. intros Hi. unfold second_moment. destruct i as [|[|[|i]]]; try lia; bx. Qed.
Lemma trap_closed : closed_mesh trapT.
Proof. apply (proj2 C37_box_cuboid (mkV (- a) (- h / 2) (d / 2)) (mkV a (- h / 2) (d / 2)) (mkV a (h / 2) (d / 2)) (mkV (- a) (h / 2) (d / 2))
                (mkV (- b) (- h / 2) (- d / 2)) (mkV b (- h / 2) (- d / 2)) (mkV b (h / 2) (- d / 2)) (mkV (- b) (h / 2) (- d / 2))). Qed.
Lemma trap_cov : exists d', covariance trapV = mdiag d'.
Proof.
  assert (M0 : vmean trapV = vzero). { unfold trapV, trap, create_cuboid, vmean, vdiv, vadd, vzero; cbn [fst fold_right vx vy vz length]. apply (f_equal3 mkV); cbn [INR]; field. }
  assert (C0 : centred trapV = trapV). { unfold centred. rewrite M0. transitivity (map (fun x : vec3 => x) trapV); [|apply map_id]. apply map_ext. intros [x y z]. unfold vsub, vzero; cbn. apply (f_equal3 mkV); ring. }
  eexists. unfold covariance. rewrite !C0. unfold trapV, trap, create_cuboid. unfold mdiag. cbn [fst rsum fold_right comp vx vy vz length].
  match goal with |- mkM ?a ?b ?c ?d0 ?e ?f ?g ?h0 ?i = _ => replace b with 0 by (unfold Rdiv; ring); replace c with 0 by (unfold Rdiv; ring); replace d0 with 0 by (unfold Rdiv; ring);
    replace f with 0 by (unfold Rdiv; ring); replace g with 0 by (unfold Rdiv; ring); replace h0 with 0 by (unfold Rdiv; ring) end.
  match goal with |- mkM ?a _ _ _ ?e _ _ _ ?i = _ => instantiate (1 := mkV a e i) end. reflexivity.
Qed.
Lemma trap_proper : proper_triangles trapV trapT.
Proof.
  intros i j k H. cbn in H. destruct trap_vats as (E0 & E1 & E2 & E3 & E4 & E5 & E6 & E7).
  assert (N1 : 0 < a * h) by nra. assert (N2 : 0 < b * h) by nra. assert (N3 : 0 < h * d) by nra. assert (N4 : 0 < a * d) by nra. assert (N5 : 0 < b * d) by nra.
  repeat (destruct H as [E|H]; [injection E as <- <- <-; rewrite ?E0, ?E1, ?E2, ?E3, ?E4, ?E5, ?E6, ?E7; unfold vcross, vsub, vzero; cbn [vx vy vz]; intros Z; injection Z as Z0 Z1 Z2; nra|]). destruct H.
Qed.
Lemma trap_good : good_stone trapV trapT.
Proof.
  split; [apply trap_plain|]. split; [apply trap_nodup|]. split; [cbn; lia|]. split; [apply trap_closed|]. split; [apply trap_proper|].
  split; [rewrite trap_volume; apply Rmult_lt_0_compat; [apply Rmult_lt_0_compat|]; lra|]. split; [apply trap_cov|].
  intros i j Hi Hj Hij. rewrite trap_second, !trap_first by auto. destruct i as [|[|[|i]]]; try lia; destruct j as [|[|[|j]]]; try lia; left; split; ring.
Qed.
Lemma trap_star : star trapV trapT (mkV (- b) (- h / 2) (- d / 2)).
Proof.
  intros i j k H. cbn in H. destruct trap_vats as (E0 & E1 & E2 & E3 & E4 & E5 & E6 & E7).
  assert (N1 : 0 < a * h * d) by (apply Rmult_lt_0_compat; [apply Rmult_lt_0_compat|]; auto).
  assert (N2 : 0 < b * h * d) by (apply Rmult_lt_0_compat; [apply Rmult_lt_0_compat|]; auto).
  repeat (destruct H as [E|H]; [injection E as <- <- <-; rewrite ?E0, ?E1, ?E2, ?E3, ?E4, ?E5, ?E6, ?E7; unfold tet_det, vdot, vcross, vsub; cbn [vx vy vz];
    match goal with |- 0 <= ?x => first [replace x with 0 by field; lra | replace x with (2 * (a * h * d)) by field; lra | replace x with (2 * (b * h * d)) by field; lra ] end|]). destruct H.
Qed.
(** large enough for its mass, its centre of mass and its moments of inertia to be kept *)
Definition big_trap : Prop :=
  let m := (a + b) * h * d in
  tiny < m /\ not_tiny (d * (a - b) / (6 * (a + b))) /\ tiny < m * ((a * a + b * b) / 6 + h * h / 12) /\ tiny < m * ((a * a + b * b) / 6 + d * d / 12) /\ tiny < m * (h * h / 12 + d * d / 12).
Lemma trap_counted : big_trap -> counted_stone trapV trapT.
Proof.
  intros (B0 & BZ & B1 & B2 & B3). assert (0 < tiny) by (unfold tiny; lra). assert (P : 0 < (a + b) * h * d) by lra.
  assert (EZ : h * (a - b) * (d * d) / 6 / ((a + b) * h * d) = d * (a - b) / (6 * (a + b))) by (field; lra).
  assert (Q : (a - b) * (a - b) <= (a + b) * (a + b)) by nra.
  assert (SQ : h * (a - b) * (d * d) / 6 * (h * (a - b) * (d * d) / 6) / ((a + b) * h * d) <= (a + b) * h * d * (d * d / 36)).
  { replace (h * (a - b) * (d * d) / 6 * (h * (a - b) * (d * d) / 6) / ((a + b) * h * d)) with (((a - b) * (a - b)) * (h * d * (d * d) / 36 / (a + b))) by (field; lra).
    replace ((a + b) * h * d * (d * d / 36)) with (((a + b) * (a + b)) * (h * d * (d * d) / 36 / (a + b))) by (field; lra). apply Rmult_le_compat_r; [|exact Q].
    unfold Rdiv. repeat apply Rmult_le_pos; try lra. apply Rlt_le, Rinv_0_lt_compat. lra. }
  assert (DD : 0 < (a + b) * h * d * (d * d / 36)). { apply Rmult_lt_0_compat; [lra|]. apply Rmult_lt_0_compat; nra. }
  assert (HH : 0 < (a + b) * h * d * (h * h / 12)). { apply Rmult_lt_0_compat; [lra|]. apply Rmult_lt_0_compat; nra. }
  assert (XX : 0 < (a + b) * h * d * ((a * a + b * b) / 6)). { apply Rmult_lt_0_compat; [lra|]. apply Rmult_lt_0_compat; nra. }
  split; [rewrite trap_volume; auto|]. split.
  { intros i Hi. rewrite trap_volume, trap_first by auto. destruct i as [|[|[|i]]]; try lia; [left; unfold Rdiv; ring|left; unfold Rdiv; ring|]. rewrite EZ. exact BZ. }
  split.
  - assert (SQ1 : forall x, (0 * 0 + x) / ((a + b) * h * d) = x / ((a + b) * h * d)) by (intros; f_equal; ring).
    assert (SQ2 : forall x, (x + 0 * 0) / ((a + b) * h * d) = x / ((a + b) * h * d)) by (intros; f_equal; ring).
    assert (SQ3 : (0 * 0) / ((a + b) * h * d) = 0) by (unfold Rdiv; ring).
    intros i j Hi Hj Hij. rewrite !trap_square, !trap_first, trap_volume by auto.
    destruct i as [|[|[|i]]]; try lia; destruct j as [|[|[|j]]]; try lia; rewrite ?SQ1, ?SQ2, ?SQ3; split; lra.
  - exists (mkV (- b) (- h / 2) (- d / 2)). split; [unfold trapV, trap, create_cuboid; cbn; tauto|apply trap_star].
Qed.
(** the points of the brick *)
Lemma trap_hull p : in_hull trapV p -> - h / 2 <= vy p <= h / 2 /\ - d / 2 <= vz p <= d / 2 /\ Rabs (vx p) <= (a + b) / 2 + (a - b) / d * vz p.
Proof.
  intros H. unfold trapV, trap, create_cuboid in H. cbn [fst] in H.
  assert (G : forall n c, Forall (fun v => vdot n v <= c) [mkV (- a) (- h / 2) (d / 2); mkV a (- h / 2) (d / 2); mkV a (h / 2) (d / 2); mkV (- a) (h / 2) (d / 2);
    mkV (- b) (- h / 2) (- d / 2); mkV b (- h / 2) (- d / 2); mkV b (h / 2) (- d / 2); mkV (- b) (h / 2) (- d / 2)] -> vdot n p <= c).
  { intros n c F. apply H. rewrite Forall_forall in F. exact F. }
  destruct p as [x y z]. cbn [vx vy vz]. set (k := (a - b) / d).
  assert (Ek : k * (d / 2) = (a - b) / 2) by (unfold k; field; lra). assert (Ek' : k * (- d / 2) = - ((a - b) / 2)) by (unfold k; field; lra).
  assert (X1 := G (mkV 1 0 (- k)) ((a + b) / 2)). assert (X2 := G (mkV (-1) 0 (- k)) ((a + b) / 2)). assert (Y1 := G (mkV 0 1 0) (h / 2)). assert (Y2 := G (mkV 0 (-1) 0) (h / 2)).
  assert (Z1 := G (mkV 0 0 1) (d / 2)). assert (Z2 := G (mkV 0 0 (-1)) (d / 2)). unfold vdot in *. cbn [vx vy vz] in *.
  specialize (X1 ltac:(repeat (apply Forall_cons; [cbn [vx vy vz]; lra|]); apply Forall_nil)). specialize (X2 ltac:(repeat (apply Forall_cons; [cbn [vx vy vz]; lra|]); apply Forall_nil)). specialize (Y1 ltac:(repeat (apply Forall_cons; [cbn [vx vy vz]; lra|]); apply Forall_nil)). specialize (Y2 ltac:(repeat (apply Forall_cons; [cbn [vx vy vz]; lra|]); apply Forall_nil)).
  specialize (Z1 ltac:(repeat (apply Forall_cons; [cbn [vx vy vz]; lra|]); apply Forall_nil)). specialize (Z2 ltac:(repeat (apply Forall_cons; [cbn [vx vy vz]; lra|]); apply Forall_nil)). split; [|split]; [lra|lra|].
  apply Rabs_le. lra.
Qed.
End Trap.
