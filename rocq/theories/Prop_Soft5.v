(** Soft-body engine: stabilisation (C117), time (C118). *)
From Verif Require Import Base ListProofs VecModel VecProofs ProxModel SolverModel SolverProofs BvhModel GridModel SurfModel VolModel RigidTypes StepModel MechModel FemModel FemSpec FemProofs FemProofs2 SoftModel SoftSpec SoftProofs SoftProofs2 SoftReach SoftProofs3 SoftProofs4 SoftFrame Prop_Soft Prop_Soft2 SoftDemo Prop_Soft3.
Open Scope R_scope.

(** ** C117: the stabilisation options *)
(** with pre-stabilisation switched on every step with a contact raises *)
Theorem C117_pre_refuted cd sv dt e cs : cd e = Some cs -> cs <> [] -> sq_pre (sg_params e) = true -> exists e', soft_step cd sv dt e = SRaised e'.
Proof.
  intros HC HN HP. destruct (soft_step cd sv dt e) as [e'|e'] eqn:ES; [|eauto]. exfalso. destruct (step_inv cd sv dt e e' ES) as (W & Fe & Ft & Fd & Fext & cs' & q & HH). cbv zeta in HH. destruct HH as (H1 & HR & H3 & H4 & H5 & H6 & H7 & H8 & HE).
  assert (cs' = cs) by congruence. subst cs'. destruct H8 as [[-> _]|(_ & J & mu & sol & _ & HP' & _)]; [contradiction|congruence].
Qed.
Definition with_post (e : sengine) (f : bool) : sengine :=
  let P := sg_params e in mkSE (sg_materials e) (sg_lib e) (mkSPar (sq_time_step P) (sq_pre P) f (sq_min_gap P) (sq_stamp P)) (sg_bodies e) (sg_contacts e) (sg_N e) (sg_stepper e).
Definition deep (e : sengine) (cs : list scontact) : Prop := exists cp, In cp cs /\ sc_g cp < - sq_min_gap (sg_params e) /\ sc_g cp < 0.
(** with post-stabilisation switched on every step with a contact deeper than min_gap raises, after having moved the bodies as the
    step without post-stabilisation does, and without counting the step *)
Theorem C117_post_refuted cd sv dt e e1 : sg_contacts e1 <> [] -> soft_step cd sv dt (with_post e false) = SDone e1 -> cd (with_post e true) = cd (with_post e false) -> deep e (sg_contacts e1) ->
  exists e', soft_step cd sv dt (with_post e true) = SRaised e' /\ sg_bodies e' = sg_bodies e1 /\ sq_stamp (sg_params e') = sq_stamp (sg_params e) /\ sq_stamp (sg_params e1) = S (sq_stamp (sg_params e)).
Proof.
  intros Hne HS HC (cp & Hcp & G1 & G2). unfold soft_step in *. cbn [with_post sg_stepper sg_bodies sg_N sg_params sq_pre sq_post] in *.
  destruct (sg_stepper e) as [[dimW W]|]; [|discriminate]. destruct (forallb ready (sg_bodies e)); cbn [negb] in *; [|discriminate].
  change (get_position_vector (with_post e true)) with (get_position_vector (with_post e false)). change (get_velocity_vector (with_post e true)) with (get_velocity_vector (with_post e false)).
  change (elastic_forces ?x (with_post e true)) with (elastic_forces x (with_post e false)). destruct (elastic_forces _ _) as [Fe|]; [|discriminate].
  change (traction_forces ?x (with_post e true)) with (traction_forces x (with_post e false)). destruct (traction_forces _ _) as [Ft|]; [|discriminate].
  change (damping_forces ?x (with_post e true)) with (damping_forces x (with_post e false)). destruct (damping_forces _ _) as [Fd|]; [|discriminate].
  change (external_forces (with_post e true)) with (external_forces (with_post e false)). destruct (external_forces _) as [Fx|]; [|discriminate].
  destruct (negb _); [discriminate|]. rewrite HC. destruct (cd (with_post e false)) as [cs|]; [|discriminate]. destruct cs as [|c cs]; [injection HS as <-; contradiction Hne; reflexivity|].
  change (soft_jacobian (sg_with_contacts (with_post e true) (c :: cs))) with (soft_jacobian (sg_with_contacts (with_post e false) (c :: cs))). destruct (soft_jacobian _) as [J|]; [|discriminate].
  destruct (sq_pre (sg_params e)); [discriminate|].
  change (soft_friction (sg_with_contacts (with_post e true) (c :: cs))) with (soft_friction (sg_with_contacts (with_post e false) (c :: cs))). destruct (soft_friction _) as [mu|]; [|discriminate].
  destruct (contact_solve _ _ _ _ _ _ _ _ _) as [sol|]; [|discriminate]. injection HS as <-.
  assert (N : forall sv J WJT e0, sg_contacts e0 = c :: cs -> sq_min_gap (sg_params e0) = sq_min_gap (sg_params e) -> soft_post_stabilization sv J WJT e0 = None).
  { intros sv0 J0 W0 e0 E1 E2. unfold soft_post_stabilization. destruct (forallb _ _) eqn:EF; [|destruct (contact_solve _ _ _ _ _ _ _ _ _); reflexivity]. exfalso.
    rewrite forallb_forall in EF. specialize (EF (post_gap (sq_min_gap (sg_params e0)) cp)). rewrite E1, E2 in EF. assert (I1 : In (post_gap (sq_min_gap (sg_params e)) cp) (map (post_gap (sq_min_gap (sg_params e))) (c :: cs))) by (apply in_map; exact Hcp).
    specialize (EF I1). apply Reqb_true in EF. unfold post_gap in EF. destruct (Rltb (sc_g cp) (- sq_min_gap (sg_params e))) eqn:EL; [lra|]. apply Rltb_false in EL. lra. }
  rewrite N by reflexivity. eexists. split; [reflexivity|]. split; [reflexivity|]. split; reflexivity.
Qed.
(** without such a contact post-stabilisation changes nothing *)
Theorem C117_post_partial cd sv dt e e1 : soft_step cd sv dt (with_post e false) = SDone e1 -> cd (with_post e true) = cd (with_post e false) ->
  (forall cp, In cp (sg_contacts e1) -> - sq_min_gap (sg_params e) <= sc_g cp) -> soft_step cd sv dt (with_post e true) = SDone (with_post e1 true).
Proof.
  intros HS HC HG. unfold soft_step in *. cbn [with_post sg_stepper sg_bodies sg_N sg_params sq_pre sq_post] in *.
  destruct (sg_stepper e) as [[dimW W]|]; [|discriminate]. destruct (forallb ready (sg_bodies e)); cbn [negb] in *; [|discriminate].
  change (get_position_vector (with_post e true)) with (get_position_vector (with_post e false)). change (get_velocity_vector (with_post e true)) with (get_velocity_vector (with_post e false)).
  change (elastic_forces ?x (with_post e true)) with (elastic_forces x (with_post e false)). destruct (elastic_forces _ _) as [Fe|]; [|discriminate].
  change (traction_forces ?x (with_post e true)) with (traction_forces x (with_post e false)). destruct (traction_forces _ _) as [Ft|]; [|discriminate].
  change (damping_forces ?x (with_post e true)) with (damping_forces x (with_post e false)). destruct (damping_forces _ _) as [Fd|]; [|discriminate].
  change (external_forces (with_post e true)) with (external_forces (with_post e false)). destruct (external_forces _) as [Fx|]; [|discriminate].
  destruct (negb _); [discriminate|]. rewrite HC. destruct (cd (with_post e false)) as [cs|]; [|discriminate]. destruct cs as [|c cs]; [injection HS as <-; reflexivity|].
  change (soft_jacobian (sg_with_contacts (with_post e true) (c :: cs))) with (soft_jacobian (sg_with_contacts (with_post e false) (c :: cs))). destruct (soft_jacobian _) as [J|]; [|discriminate].
  destruct (sq_pre (sg_params e)); [discriminate|].
  change (soft_friction (sg_with_contacts (with_post e true) (c :: cs))) with (soft_friction (sg_with_contacts (with_post e false) (c :: cs))). destruct (soft_friction _) as [mu|]; [|discriminate].
  destruct (contact_solve _ _ _ _ _ _ _ _ _) as [sol|]; [|discriminate]. injection HS as <-. rewrite post_fine; [reflexivity|]. exact HG.
Qed.

(** the tetrahedron with a contact (with itself) of depth 1 *)
Definition demo_contact : scontact := mkSC 0 0 0 0 (1, 0, 0, 0) (0, 1, 0, 0) vzero (mkV 0 0 1) (-1).
Lemma demo_contacts_fine I0 g v W : contacts_fine (sg_with_stepper (demo_engine I0 g v) W) [demo_contact].
Proof.
  intros cp [<-|[]]. exists (demo_body I0 g v), (demo_body I0 g v), demo_elem, demo_elem, default_name, default_name. repeat (split; [reflexivity|]). split; [|repeat (split; [reflexivity|]); discriminate].
  assert (NZ : mkV 0 0 1 <> vzero) by (intros H; injection H; lra). destruct (orthonormal_spec (mkV 0 0 1) NZ) as (vs & vt & vn & E & _). cbn [demo_contact sc_n]. rewrite E. discriminate.
Qed.
Example C117_nonvacuous eigh : let cd := fun _ => Some [demo_contact] in let sv := fun _ _ _ _ _ _ _ => Some vzeros in
  exists e e1, soft_reach eigh demo_axis e /\ sg_contacts e1 <> [] /\ soft_step cd sv (1 / 1000) (with_post e false) = SDone e1 /\ cd (with_post e true) = cd (with_post e false) /\ deep e (sg_contacts e1).
Proof.
  cbv zeta. destruct (demo_stepper eigh vzero vzero) as (e & I0 & Ee & HR & W & EW & R1 & F1 & S1). exists (sg_with_stepper e W). destruct F1 as (M & W0 & F2 & F3 & F4).
  assert (EP : with_post (sg_with_stepper e W) false = sg_with_stepper e W) by (rewrite Ee; reflexivity). rewrite EP.
  destruct (C115_step_succeeds eigh demo_axis (fun _ => Some [demo_contact]) (fun _ _ _ _ _ _ _ => Some vzeros) (1 / 1000) (sg_with_stepper e W) W0 [demo_contact] R1 S1 F3 eq_refl) as (e' & HS).
  { intros _. rewrite Ee. split; [apply demo_contacts_fine|]. split; [reflexivity|]. split; [discriminate|]. discriminate. }
  exists e'. pose proof (step_cd _ _ _ _ _ HS) as EC. injection EC as EC. rewrite <- EC. split; [exact R1|]. split; [discriminate|]. split; [exact HS|]. split; [reflexivity|]. exists demo_contact. rewrite Ee. cbn. split; [left; reflexivity|]. lra.
Qed.

(** ** C118: time *)
Theorem C118_rejects inv cd sv fuel T e : T <= 0 -> soft_simulate inv cd sv fuel T e = SimRaised e.
Proof. intros H. unfold soft_simulate. rewrite Rleb_t by exact H. reflexivity. Qed.
Fixpoint soft_steps (cd : sengine -> option (list scontact)) (sv : ssolver) (dts : list R) (e : sengine) : option sengine :=
  match dts with [] => Some e | dt :: r => match soft_step cd sv dt e with SDone e' => soft_steps cd sv r e' | SRaised _ => None end end.
Fixpoint total (l : list R) : R := match l with [] => 0 | x :: r => x + total r end.
Lemma step_stamp cd sv dt e e' : soft_step cd sv dt e = SDone e' -> sq_stamp (sg_params e') = S (sq_stamp (sg_params e)) /\ sq_time_step (sg_params e') = sq_time_step (sg_params e).
Proof.
  intros H. pose proof (step_evolved cd sv dt e) as HE. rewrite H in HE. split; [|apply (ev_time_step _ _ HE)].
  destruct (step_inv cd sv dt e e' H) as (W & Fe & Ft & Fd & Fext & cs & q & HH). cbv zeta in HH. destruct HH as (_ & _ & _ & _ & _ & _ & _ & _ & ->). reflexivity.
Qed.
Lemma loop_time cd sv fuel : forall T e e' dts, 0 < T -> 0 < sq_time_step (sg_params e) -> soft_loop (soft_step cd sv) fuel T e = SimEnd e' dts ->
  exists k last, dts = repeat (sq_time_step (sg_params e)) k ++ [last] /\ 0 < last <= sq_time_step (sg_params e) /\ total dts = T /\ soft_steps cd sv dts e = Some e' /\ sq_stamp (sg_params e') = (sq_stamp (sg_params e) + length dts)%nat.
Proof.
  induction fuel as [|fuel IH]; intros T e e' dts HT Hts; cbn [soft_loop]; (destruct (Reqb_spec T 0); [lra|]); [discriminate|]. cbv zeta. set (ts := sq_time_step (sg_params e)) in *.
  destruct (soft_step cd sv (Rmin T ts) e) as [e1|] eqn:ES; [|discriminate]. destruct (soft_loop _ fuel (T - Rmin T ts) e1) as [| e2 d2 |] eqn:EL; try discriminate. intros H. injection H as <- <-.
  destruct (step_stamp _ _ _ _ _ ES) as [S1 S2]. fold ts in S2. destruct (Rle_lt_dec T ts) as [L|L].
  - rewrite Rmin_left in * by exact L. destruct fuel; cbn [soft_loop] in EL; (destruct (Reqb_spec (T - T) 0); [|lra]); injection EL as <- <-; exists 0%nat, T; cbn [repeat app length total soft_steps]; rewrite ES; repeat split; try lra; rewrite S1; lia.
  - rewrite Rmin_right in * by lra. destruct (IH (T - ts) e1 e2 d2 ltac:(lra) ltac:(rewrite S2; exact Hts) EL) as (k & last & E1 & E2 & E3 & E4 & E5). rewrite S2 in *.
    exists (S k), last. cbn [repeat app length total soft_steps]. rewrite ES. split; [rewrite E1; reflexivity|]. split; [exact E2|]. split; [lra|]. split; [exact E4|]. rewrite E5, S1. lia.
Qed.
(** a simulate that returns has made steps of length time_step, the last one possibly shorter, that add up to T; the stamp counts them *)
Theorem C118_time inv cd sv fuel T e e' dts : 0 < sq_time_step (sg_params e) -> soft_simulate inv cd sv fuel T e = SimEnd e' dts ->
  0 < T /\ exists k last, dts = repeat (sq_time_step (sg_params e)) k ++ [last] /\ 0 < last <= sq_time_step (sg_params e) /\ total dts = T /\
    soft_steps cd sv dts (with_first_stepper inv e) = Some e' /\ sq_stamp (sg_params e') = (sq_stamp (sg_params e) + length dts)%nat.
Proof.
  intros Hts H. unfold soft_simulate, with_first_stepper in *. destruct (Rleb T 0) eqn:ET; [discriminate|]. apply Rleb_false in ET. split; [exact ET|]. destruct (sg_stepper e); [apply (loop_time cd sv fuel T e e' dts ET Hts H)|].
  destruct (soft_inverse_mass_matrix inv e) as [W|]; [|discriminate]. exact (loop_time cd sv fuel T (sg_with_stepper e W) e' dts ET Hts H).
Qed.
(** it returns or raises: the loop ends for every positive time_step *)
Lemma loop_ends cd sv n : forall T e, 0 < T -> 0 < sq_time_step (sg_params e) -> T <= INR n * sq_time_step (sg_params e) -> forall fuel, (n <= fuel)%nat -> soft_loop (soft_step cd sv) fuel T e <> SimMore.
Proof.
  induction n as [|n IH]; intros T e HT Hts HL fuel Hf; [cbn in HL; lra|]. destruct fuel as [|fuel]; [lia|]. cbn [soft_loop]. destruct (Reqb_spec T 0); [discriminate|]. cbv zeta. set (ts := sq_time_step (sg_params e)) in *.
  destruct (soft_step cd sv (Rmin T ts) e) as [e1|] eqn:ES; [|discriminate]. destruct (step_stamp _ _ _ _ _ ES) as [S1 S2]. fold ts in S2. rewrite S_INR in HL. destruct (Rle_lt_dec T ts) as [L|L].
  - rewrite Rmin_left by exact L. destruct fuel; cbn [soft_loop]; (destruct (Reqb_spec (T - T) 0); [|lra]); discriminate.
  - rewrite Rmin_right by lra. specialize (IH (T - ts) e1 ltac:(lra) ltac:(rewrite S2; exact Hts) ltac:(rewrite S2; lra) fuel ltac:(lia)). destruct (soft_loop _ fuel (T - ts) e1); [discriminate|discriminate|exact IH].
Qed.
Theorem C118_terminates inv cd sv T e : 0 < sq_time_step (sg_params e) -> exists n, forall fuel, (n <= fuel)%nat -> soft_simulate inv cd sv fuel T e <> SimMore.
Proof.
  intros Hts. destruct (Rle_lt_dec T 0) as [L|L]; [exists 0%nat; intros fuel _; rewrite C118_rejects by exact L; discriminate|].
  set (n := Z.to_nat (up (T / sq_time_step (sg_params e)))). assert (Hn : T <= INR n * sq_time_step (sg_params e)).
  { destruct (archimed (T / sq_time_step (sg_params e))) as [H1 _]. assert (P : 0 < T / sq_time_step (sg_params e)) by (apply Rdiv_lt_0_compat; auto).
    assert (Hz : (0 < up (T / sq_time_step (sg_params e)))%Z) by (apply lt_IZR; lra). unfold n. rewrite INR_IZR_INZ, Z2Nat.id by lia.
    replace T with (T / sq_time_step (sg_params e) * sq_time_step (sg_params e)) at 1 by (field; lra). apply Rmult_le_compat_r; lra. }
  exists n. intros fuel Hf. unfold soft_simulate. destruct (Rleb T 0); [discriminate|]. destruct (sg_stepper e); [apply (loop_ends cd sv n); assumption|].
  destruct (soft_inverse_mass_matrix inv e) as [W|]; [|discriminate]. apply (loop_ends cd sv n T (sg_with_stepper e W)); assumption.
Qed.
(** with a time_step that is not positive it never returns *)
Theorem C118_nonpositive_step inv cd sv fuel T e e' dts : sq_time_step (sg_params e) <= 0 -> soft_simulate inv cd sv fuel T e <> SimEnd e' dts.
Proof.
  intros Hts. assert (L : forall fuel T e e' dts, 0 < T -> sq_time_step (sg_params e) <= 0 -> soft_loop (soft_step cd sv) fuel T e <> SimEnd e' dts).
  { clear. induction fuel as [|fuel IH]; intros T e e' dts HT Hts; cbn [soft_loop]; (destruct (Reqb_spec T 0); [lra|]); [discriminate|]. cbv zeta. destruct (soft_step cd sv _ e) as [e1|] eqn:ES; [|discriminate].
    destruct (step_stamp _ _ _ _ _ ES) as [_ S2]. rewrite Rmin_right by lra. specialize (IH (T - sq_time_step (sg_params e)) e1). destruct (soft_loop _ fuel _ e1) as [| e2 d2 |] eqn:EL; try discriminate. exfalso. apply (IH e2 d2); [lra|rewrite S2; exact Hts|reflexivity]. }
  unfold soft_simulate. destruct (Rleb T 0) eqn:ET; [discriminate|]. apply Rleb_false in ET. destruct (sg_stepper e); [apply L; assumption|]. destruct (soft_inverse_mass_matrix inv e) as [W|]; [|discriminate]. apply L; assumption.
Qed.
(** the drifting tetrahedron of C112_nonvacuous, one step of a default engine *)
Example C118_nonvacuous eigh : exists e inv e', soft_reach eigh demo_axis e /\ soft_simulate inv (fun _ => Some []) (fun _ _ _ _ _ _ _ => None) 1 (1 / 1000) e = SimEnd e' [1 / 1000].
Proof.
  destruct (demo_stepper eigh vzero (mkV 1 2 3)) as (e & I0 & Ee & HR & W & EW & R1 & F1 & S1). exists e, demo_inv. destruct F1 as (M & W0 & F2 & F3 & F4).
  destruct (C115_step_succeeds eigh demo_axis (fun _ => Some []) (fun _ _ _ _ _ _ _ => None) (1 / 1000) (sg_with_stepper e W) W0 [] R1 S1 F3 eq_refl) as (e' & HS). { intros H. destruct H. reflexivity. }
  exists e'. split; [exact HR|]. unfold soft_simulate. destruct (Rleb (1 / 1000) 0) eqn:EL; [apply Rleb_true in EL; lra|]. assert (EN : sg_stepper e = None) by (rewrite Ee; reflexivity). rewrite EN, EW. cbn [soft_loop].
  destruct (Reqb_spec (1 / 1000) 0); [lra|]. cbv zeta. assert (ET : sq_time_step (sg_params (sg_with_stepper e W)) = 1 / 1000) by (rewrite Ee; reflexivity). rewrite ET, Rmin_left by lra. rewrite HS. destruct (Reqb_spec (1 / 1000 - 1 / 1000) 0); [reflexivity|lra].
Qed.
