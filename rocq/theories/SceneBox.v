(** The box as a stone. *)
From Verif Require Import Base QuatModel VecModel BvhModel GridModel VolModel RigidTypes MassModel MassSpec MassProofs Prop_Mass SurfModel SurfSpec Prop_Surface SceneModel SceneSpec SceneMesh SceneProofs SceneShape.
From Coq Require Import Permutation.
Open Scope R_scope.

Section Box.
Variables w h d : R.
Hypothesis Hw : 0 < w.
Hypothesis Hh : 0 < h.
Hypothesis Hd : 0 < d.
Definition boxV : list vec3 := fst (create_box w h d).
Definition boxT : list tri := snd (create_box w h d).
Lemma box_vats : vat boxV 0 = mkV (- w / 2) (- h / 2) (- d / 2) /\ vat boxV 1 = mkV (w / 2) (- h / 2) (- d / 2) /\ vat boxV 2 = mkV (- w / 2) (h / 2) (- d / 2) /\ vat boxV 3 = mkV (w / 2) (h / 2) (- d / 2) /\
  vat boxV 4 = mkV (- w / 2) (- h / 2) (d / 2) /\ vat boxV 5 = mkV (w / 2) (- h / 2) (d / 2) /\ vat boxV 6 = mkV (- w / 2) (h / 2) (d / 2) /\ vat boxV 7 = mkV (w / 2) (h / 2) (d / 2).
Proof. do 7 (split; [unfold boxV, create_box, vat, vscale; cbn; apply (f_equal3 mkV); field|]). unfold boxV, create_box, vat, vscale; cbn; apply (f_equal3 mkV); field. Qed.
Lemma boxV_eq : boxV = [mkV (- w / 2) (- h / 2) (- d / 2); mkV (w / 2) (- h / 2) (- d / 2); mkV (- w / 2) (h / 2) (- d / 2); mkV (w / 2) (h / 2) (- d / 2);
  mkV (- w / 2) (- h / 2) (d / 2); mkV (w / 2) (- h / 2) (d / 2); mkV (- w / 2) (h / 2) (d / 2); mkV (w / 2) (h / 2) (d / 2)].
Proof. unfold boxV, create_box, vscale; cbn. repeat (apply f_equal2; [apply (f_equal3 mkV); field|]). reflexivity. Qed.
Lemma box_nodup : NoDup boxV.
Proof.
  rewrite boxV_eq. repeat (constructor; [cbn [In]; intros HH; repeat (destruct HH as [HH|HH]; [injection HH; intros; lra|]); exact HH|]). constructor.
Qed.
Lemma box_plain : plain boxV boxT.
Proof.
  intros i j k H. replace (length boxV) with 8%nat by reflexivity. cbn in H. repeat (destruct H as [E|H]; [injection E as <- <- <-; lia|]). destruct H.
Qed.
Lemma box_sum f : mesh_sum f boxV boxT =
  let v := vat boxV in
  f (v 0%Z) (v 2%Z) (v 3%Z) + (f (v 0%Z) (v 3%Z) (v 1%Z) + (f (v 4%Z) (v 5%Z) (v 7%Z) + (f (v 4%Z) (v 7%Z) (v 6%Z) + (f (v 1%Z) (v 3%Z) (v 7%Z) + (f (v 1%Z) (v 7%Z) (v 5%Z) +
  (f (v 0%Z) (v 4%Z) (v 6%Z) + (f (v 0%Z) (v 6%Z) (v 2%Z) + (f (v 0%Z) (v 1%Z) (v 5%Z) + (f (v 0%Z) (v 5%Z) (v 4%Z) + (f (v 3%Z) (v 2%Z) (v 6%Z) + (f (v 3%Z) (v 6%Z) (v 7%Z) + 0))))))))))).
Proof. reflexivity. Qed.
Ltac bx := rewrite box_sum; cbv zeta; destruct box_vats as (-> & -> & -> & -> & -> & -> & -> & ->);
  unfold tet_volume, tet_first, tet_second, tet_det, vdot, vcross, comp; cbn [vx vy vz]; field.
Lemma box_volume : volume boxV boxT = w * h * d.
Proof. unfold volume. bx. Qed.
Lemma box_first i : (i < 3)%nat -> first_moment boxV boxT i = 0.
Proof. intros Hi. unfold first_moment. destruct i as [|[|[|i]]]; try lia; bx. Qed.
Lemma box_second i j : (i < 3)%nat -> (j < 3)%nat -> i <> j -> second_moment boxV boxT i j = 0.
Proof. intros Hi Hj Hij. unfold second_moment. destruct i as [|[|[|i]]]; try lia; destruct j as [|[|[|j]]]; try lia; bx. Qed.
Lemma box_square i : (i < 3)%nat -> second_moment boxV boxT i i = w * h * d * (comp (mkV w h d) i * comp (mkV w h d) i) / 12.
Proof. intros Hi. unfold second_moment. destruct i as [|[|[|i]]]; try lia; bx. Qed.
Lemma box_closed : closed_mesh boxT.
Proof. apply (proj1 C37_box_cuboid w h d). Qed.
Lemma box_cov : exists d', covariance boxV = mdiag d'.
Proof.
  assert (M0 : vmean boxV = vzero). { rewrite boxV_eq. unfold vmean, vdiv, vadd, vzero; cbn [fold_right vx vy vz length]. apply (f_equal3 mkV); cbn [INR]; field. }
  assert (C0 : centred boxV = boxV). { unfold centred. rewrite M0. transitivity (map (fun x : vec3 => x) boxV); [|apply map_id]. apply map_ext. intros [x y z]. unfold vsub, vzero; cbn. apply (f_equal3 mkV); ring. }
  eexists. unfold covariance. rewrite !C0. rewrite boxV_eq. unfold mdiag. cbn [rsum fold_right comp vx vy vz length].
  match goal with |- mkM ?a ?b ?c ?d0 ?e ?f ?g ?h0 ?i = _ => replace b with 0 by (unfold Rdiv; ring); replace c with 0 by (unfold Rdiv; ring); replace d0 with 0 by (unfold Rdiv; ring);
    replace f with 0 by (unfold Rdiv; ring); replace g with 0 by (unfold Rdiv; ring); replace h0 with 0 by (unfold Rdiv; ring) end.
  match goal with |- mkM ?a _ _ _ ?e _ _ _ ?i = _ => instantiate (1 := mkV a e i) end. reflexivity.
Qed.
Lemma box_proper : proper_triangles boxV boxT.
Proof.
  intros i j k H. cbn in H. destruct box_vats as (E0 & E1 & E2 & E3 & E4 & E5 & E6 & E7).
  assert (N1 : w * h <> 0) by nra. assert (N2 : w * d <> 0) by nra. assert (N3 : h * d <> 0) by nra.
  repeat (destruct H as [E|H]; [injection E as <- <- <-; rewrite ?E0, ?E1, ?E2, ?E3, ?E4, ?E5, ?E6, ?E7; unfold vcross, vsub, vzero; cbn [vx vy vz]; intros Z; injection Z as Z0 Z1 Z2; nra|]). destruct H.
Qed.
Lemma box_good : good_stone boxV boxT.
Proof.
  split; [apply box_plain|]. split; [apply box_nodup|]. split; [cbn; lia|]. split; [apply box_closed|]. split; [apply box_proper|].
  split; [rewrite box_volume; apply Rmult_lt_0_compat; [apply Rmult_lt_0_compat|]; auto|]. split; [apply box_cov|].
  intros i j Hi Hj Hij. rewrite box_second, box_first by auto. left. split; ring.
Qed.
Lemma box_star : star boxV boxT (mkV (- w / 2) (- h / 2) (- d / 2)).
Proof.
  intros i j k H. cbn in H. destruct box_vats as (E0 & E1 & E2 & E3 & E4 & E5 & E6 & E7).
  assert (N1 : 0 < w * h * d) by (apply Rmult_lt_0_compat; [apply Rmult_lt_0_compat|]; auto).
  repeat (destruct H as [E|H]; [injection E as <- <- <-; rewrite ?E0, ?E1, ?E2, ?E3, ?E4, ?E5, ?E6, ?E7; unfold tet_det, vdot, vcross, vsub; cbn [vx vy vz];
    match goal with |- 0 <= ?x => first [replace x with 0 by field; lra | replace x with (w * h * d) by field; lra] end|]). destruct H.
Qed.
(** a box large enough for its mass and its moments of inertia to be kept *)
Definition big_box : Prop := tiny < w * h * d /\ tiny < w * h * d * (w * w + h * h) / 12 /\ tiny < w * h * d * (w * w + d * d) / 12 /\ tiny < w * h * d * (h * h + d * d) / 12.
Lemma box_counted : big_box -> counted_stone boxV boxT.
Proof.
  intros (B0 & B1 & B2 & B3). assert (0 < tiny) by (unfold tiny; lra). split; [rewrite box_volume; auto|]. split; [intros i Hi; left; rewrite box_first by auto; unfold Rdiv; ring|]. split.
  - intros i j Hi Hj Hij. rewrite !box_square, !box_first by auto. assert (Z0 : (0 * 0 + 0 * 0) / volume boxV boxT = 0) by (unfold Rdiv; ring). rewrite Z0, Rminus_0_r.
    assert (Q : tiny < w * h * d * (comp (mkV w h d) i * comp (mkV w h d) i) / 12 + w * h * d * (comp (mkV w h d) j * comp (mkV w h d) j) / 12).
    { destruct i as [|[|[|i]]]; try lia; destruct j as [|[|[|j]]]; try lia; cbn [comp vx vy vz]; lra. }
    split; [exact Q|lra].
  - exists (mkV (- w / 2) (- h / 2) (- d / 2)). split; [rewrite boxV_eq; left; reflexivity|apply box_star].
Qed.
End Box.
