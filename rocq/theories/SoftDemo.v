(** A concrete engine: one tetrahedron of Saint Venant-Kirchhoff material; used to show that hypotheses can be met. *)
From Verif Require Import Base ListProofs VecModel VecProofs SolverModel SolverProofs BvhModel GridModel SurfModel VolModel RigidTypes StepModel MechModel FemModel FemSpec FemProofs FemProofs2 SoftModel SoftSpec SoftProofs SoftProofs2 SoftReach SoftProofs3 SoftFrame Prop_Fem Prop_Soft2.
Open Scope R_scope.

Definition demo_V : list vec3 := [mkV 0 0 0; mkV 1 0 0; mkV 2 1 0; mkV 3 0 1].
Definition demo_T : list (list Z) := [[0; 1; 2; 3]%Z].
Definition demo_axis : list vec3 -> option vec3 := fun _ => Some (mkV 1 0 0).
Definition demo_name : name := [1%nat].
Lemma Rleb_t x y : x <= y -> Rleb x y = true. Proof. apply Rleb_true. Qed.
Lemma demo_sort : axis_sort demo_V demo_T (mkV 1 0 0) = Some (demo_V, demo_T).
Proof.
  assert (U : v3_unit (mkV 1 0 0) = mkV 1 0 0). { unfold v3_unit, vnorm. replace (vdot (mkV 1 0 0) (mkV 1 0 0)) with 1 by (vunf; ring). rewrite sqrt_1. vunf. f_equal; field. }
  unfold axis_sort. rewrite U. cbv zeta.
  assert (A1 : argsort (fun k => nth k (map (fun p => vdot p (mkV 1 0 0)) demo_V) 0) (length demo_V) = [0; 1; 2; 3]%nat).
  { unfold argsort, isort, demo_V. cbn [length seq fold_right insert map nth]. repeat (rewrite Rleb_t by (vunf; lra); cbn [insert]). reflexivity. }
  rewrite A1.
  assert (A2 : argsort (fun k => INR (nth k [0; 1; 2; 3]%nat 0%nat)) (length (map (fun p => vdot p (mkV 1 0 0)) demo_V)) = [0; 1; 2; 3]%nat).
  { unfold argsort, isort, demo_V. cbn [length seq fold_right insert map nth]. repeat (rewrite Rleb_t by (apply le_INR; lia); cbn [insert]). reflexivity. }
  rewrite A2. reflexivity.
Qed.
Definition demo_x0 : field := fun n => nth n demo_V vzero.
Definition demo_elem : elem := (0, 1, 2, 3)%nat.
Lemma demo_volume : elem_volume demo_x0 demo_elem = 1 / 6.
Proof. unfold elem_volume, corners. cbn [node demo_elem]. unfold demo_x0, demo_V. cbn [nth]. vunf. field. Qed.
Lemma demo_D0 : exists I0, compute_inverse_D0 demo_x0 [demo_elem] = Some I0.
Proof. apply (C105_raises demo_x0 demo_x0). repeat constructor. rewrite demo_volume. lra. Qed.
Definition demo_material : smaterial := mkMat SVK 0 1000 100000 (3 / 10).
Definition demo_body (I0 : list mat3) (g v : vec3) : sbody :=
  mkSBody demo_name Complete 0 4 [demo_elem] (surface_tris [demo_elem]) demo_x0 [elem_volume demo_x0 demo_elem] (compute_outward_face_vectors demo_x0 [demo_elem]) I0
    (Some (compute_mass_element_array 1000 [elem_volume demo_x0 demo_elem] true)) (Some (compute_damping_element_array 0 [elem_volume demo_x0 demo_elem] true))
    demo_x0 (fun _ => v) [] [] (Some default_name) g true false.
Definition demo_engine (I0 : list mat3) (g v : vec3) : sengine := mkSE [(default_name, demo_material)] library_init sparameters_init [demo_body I0 g v] [] 4 None.
Definition reach_done eigh axis e c e' (H : soft_reach eigh axis e) (HC : srun eigh axis c e = SDone e') : soft_reach eigh axis e' := reach_call eigh axis e c e' H (or_introl HC).
Lemma demo_reach eigh I0 g v : compute_inverse_D0 demo_x0 [demo_elem] = Some I0 -> soft_reach eigh demo_axis (demo_engine I0 g v).
Proof.
  intros HI.
  set (b1 := mkSBody demo_name Complete 0 4 [demo_elem] (surface_tris [demo_elem]) demo_x0 [elem_volume demo_x0 demo_elem] (compute_outward_face_vectors demo_x0 [demo_elem]) I0 None None
    demo_x0 fzero [] [] None (mkV 0 (- (982 / 100)) 0) true false).
  set (e1 := mkSE [(default_name, material_init eigh)] library_init sparameters_init [b1] [] 4 None).
  assert (R1 : soft_reach eigh demo_axis e1).
  { eapply (reach_done _ _ _ (SCreateBody demo_name demo_V demo_T)); [apply reach_init|]. cbn [srun]. unfold create_soft_body. cbn [find_sbody soft_engine_init sg_bodies find]. unfold demo_axis at 1. rewrite demo_sort. cbn [map_all elem_of_row demo_T Z.to_nat].
    change (Pos.to_nat 1) with 1%nat. change (Pos.to_nat 2) with 2%nat. change (Pos.to_nat 3) with 3%nat. change (0, 1, 2, 3)%nat with demo_elem. change (fun n : nat => nth n demo_V vzero) with demo_x0.
    cbv zeta. rewrite HI. reflexivity. }
  set (e2 := mkSE [(default_name, demo_material)] library_init sparameters_init [b1] [] 4 None).
  assert (R2 : soft_reach eigh demo_axis e2) by (eapply (reach_done _ _ _ (SSetModel default_name SVK)); [exact R1|reflexivity]).
  assert (R3 : soft_reach eigh demo_axis (demo_engine I0 (mkV 0 (- (982 / 100)) 0) vzero)) by (eapply (reach_done _ _ _ (SSetMaterial demo_name default_name)); [exact R2|reflexivity]).
  assert (R4 : soft_reach eigh demo_axis (demo_engine I0 g vzero)) by (eapply (reach_done _ _ _ (SSetGravity demo_name g)); [exact R3|reflexivity]).
  eapply (reach_done _ _ _ (SSetVelocity demo_name v)); [exact R4|reflexivity].
Qed.
(** an inverse for sparse.linalg.inv *)
Definition demo_inv : nat -> mat -> option mat := fun _ M => Some (fun i j => if Nat.eqb i j then / M i i else 0).
Lemma demo_massive I0 g v : massive (demo_body I0 g v).
Proof.
  split; [exists 1000; split; [lra|reflexivity]|]. cbn [demo_body s_n s_T]. intros n Hn. exists demo_elem, n. split; [left; reflexivity|]. split; [lia|]. destruct n as [|[|[|[|n]]]]; try reflexivity. lia.
Qed.
Lemma demo_svk F lam mu : pk1_stress SVK F lam mu <> None. Proof. discriminate. Qed.
(** the engine inside its first simulate *)
Lemma demo_stepper eigh g v : exists e I0, e = demo_engine I0 g v /\ soft_reach eigh demo_axis e /\ exists W, soft_inverse_mass_matrix demo_inv e = Some W /\
  soft_reach eigh demo_axis (sg_with_stepper e W) /\ stepper_fresh (sg_with_stepper e W) /\ steppable (sg_with_stepper e W).
Proof.
  destruct demo_D0 as [I0 HI]. exists (demo_engine I0 g v), I0. split; [reflexivity|]. pose proof (demo_reach eigh I0 g v HI) as HR. split; [exact HR|].
  assert (EM : exists M, soft_mass_matrix (demo_engine I0 g v) = Some M) by (eexists; reflexivity). destruct EM as [M EM].
  assert (HD : is_inverse 12 M (fun i j => if Nat.eqb i j then / M i i else 0)).
  { apply diagonal_inverse. apply (mass_entries (demo_engine I0 g v)); [exact (reach_ok _ _ _ HR)|reflexivity|exact EM|]. intros b [<-|[]]. apply demo_massive. }
  eexists. unfold soft_inverse_mass_matrix. rewrite EM. cbn [demo_inv]. split; [reflexivity|]. split.
  { apply (reach_stepper _ _ demo_inv); [exact HR|reflexivity|]. unfold soft_inverse_mass_matrix. rewrite EM. reflexivity. }
  split.
  - exists M. eexists. split; [exact EM|]. split; [reflexivity|]. exact HD.
  - intros b [<-|[]]. split; [reflexivity|]. split; [discriminate|]. split.
    + repeat constructor. change (start_position (demo_body I0 g v)) with demo_x0. rewrite demo_volume. lra.
    + assert (L1 : exists l, first_lame 100000 (3 / 10) = Some l) by (unfold first_lame; repeat match goal with |- context [Reqb ?a ?b] => destruct (Reqb_spec a b); [exfalso; lra|] end; eauto).
      assert (L2 : exists l, second_lame 100000 (3 / 10) = Some l) by (unfold second_lame; repeat match goal with |- context [Reqb ?a ?b] => destruct (Reqb_spec a b); [exfalso; lra|] end; eauto).
      destruct L1 as [l1 L1], L2 as [l2 L2]. exists demo_material, l1, l2. split; [reflexivity|]. split; [exact L1|]. split; [exact L2|]. intros F. apply demo_svk.
Qed.
