(** The contact law: C126 (solvers), C127 (rigid body steps). *)
From Coq Require Import FunctionalExtensionality Permutation.
From Verif Require Import Base QuatModel VecModel BvhModel GridModel VolModel VecProofs SolverModel SolverSpec SolverProofs ProxModel ProxSpec ProxProofs QuatProofs QuatMatProofs RotProofs
  BvhSpec RigidTypes RigidSpec CollModel StepModel StepProofs StepProofs2 ReadySpec ReadyProofs ConSpec ConProofs ConProofs2 FrameProofs Prop_Step Prop_Constraints Prop_Contacts LawSpec LawProofs LawProofs2.
Open Scope R_scope.

(** * C126 *)
(** Whatever the scheme, the iterates that a further sweep leaves alone are exactly the solutions of the contact law,
    in which the sliding velocity is weighted by the r-factors. *)
Theorem C126_stationary s K N J WJT b mu order groups r x :
  (forall i, (i < 4 * K)%nat -> 0 < r i) -> (forall k, (k < K)%nat -> 0 <= mu k) ->
  (forall g, Permutation (order g) g) -> Permutation (concat groups) (seq 0 K) ->
  let P := contact_problem K N J WJT b mu prox_sphere in
  (stationary (4 * K) (scheme_sweep s K N J WJT b mu prox_sphere order groups) r x <->
   contact_law (friction_of r) K mu x (residual P x)).
Proof.
  intros Hr Hm Ho Hg P.
  assert (G : stationary (4 * K) (scheme_sweep s K N J WJT b mu prox_sphere order groups) r x <-> forall k, (k < K)%nat -> block_ok P r x k).
  { destruct s; cbn [scheme_sweep].
    - apply (gs_stationary P r x). cbn; lia.
    - apply (pgs_stationary P order groups r x); auto. cbn; lia.
    - apply jacobi_stationary; auto.
    - apply jacobi_stationary; auto. }
  rewrite G. unfold contact_law. split; intros H k Hk; apply (contact_block_ok K N J WJT b mu r x k); auto.
Qed.
Lemma vmul_scale c a v : a = mkV c c c -> vmul a v = vscale c v.
Proof. intros ->. destruct v. reflexivity. Qed.
(** With equal r-factors in the three friction rows of every contact the weights disappear: Coulomb's law. *)
Theorem C126_coulomb_partial s K N J WJT b mu order groups r x :
  (forall i, (i < 4 * K)%nat -> 0 < r i) -> (forall k, (k < K)%nat -> 0 <= mu k) ->
  (forall g, Permutation (order g) g) -> Permutation (concat groups) (seq 0 K) ->
  (forall k, (k < K)%nat -> r (4 * k + 1)%nat = r (4 * k + 2)%nat /\ r (4 * k + 2)%nat = r (4 * k + 3)%nat) ->
  let P := contact_problem K N J WJT b mu prox_sphere in
  (stationary (4 * K) (scheme_sweep s K N J WJT b mu prox_sphere order groups) r x <->
   contact_law (fun _ => mkV 1 1 1) K mu x (residual P x)).
Proof.
  intros Hr Hm Ho Hg He P. rewrite (C126_stationary s K N J WJT b mu order groups r x Hr Hm Ho Hg). fold P.
  unfold contact_law. split; intros H k Hk; (destruct (H k Hk) as [HS [HB HD]]; split; [exact HS|split; [exact HB|]]); intros g Hgg; specialize (HD g Hgg);
    destruct (He k Hk) as [E1 E2]; assert (Hr1 := Hr (4 * k + 1)%nat ltac:(lia));
    assert (E : friction_of r k = mkV (r (4 * k + 1)%nat) (r (4 * k + 1)%nat) (r (4 * k + 1)%nat)) by (unfold friction_of; congruence);
    rewrite ?(vmul_scale _ _ _ E), ?(vmul_scale 1 (mkV 1 1 1) _ eq_refl) in *; revert HD; generalize (friction_of x k) (friction_of (residual P x) k) (r (4 * k + 1)%nat) Hr1; clear; intros [f1 f2 f3] [v1 v2 v3] c Hc; destruct g as [g1 g2 g3]; unfold vdot, vscale; cbn; intros HD.
  - apply Rmult_le_reg_l with c; auto. lra.
  - replace (f1 * (c * v1) + f2 * (c * v2) + f3 * (c * v3)) with (c * (f1 * (1 * v1) + f2 * (1 * v2) + f3 * (1 * v3))) by ring.
    replace (g1 * (c * v1) + g2 * (c * v2) + g3 * (c * v3)) with (c * (g1 * (1 * v1) + g2 * (1 * v2) + g3 * (1 * v3))) by ring. apply Rmult_le_compat_l; lra.
Qed.

(** the r-factors the solvers start from, one contact with Delassus matrix diag(1, 1, 4, 1) *)
Definition ref_J : mat := fun i j => if Nat.eqb i j then (if Nat.eqb i 2 then 2 else 1) else 0.
Definition ref_b : vec := fun i => match i with O => -1 | 1%nat => -6/5 | 2%nat => -32/5 | _ => 0 end.
Definition ref_x : vec := fun i => match i with O => 1 | 1%nat => 3/5 | 2%nat => 4/5 | _ => 0 end.
Lemma ref_residual : let P := contact_problem 1 4 ref_J ref_J ref_b (fun _ => 1) prox_sphere in
  normal_of (residual P ref_x) 0 = 0 /\ friction_of (residual P ref_x) 0 = mkV (-3/5) (-16/5) 0.
Proof.
  cbv zeta. unfold normal_of, friction_of, residual, delassus, WJTx, mdotv, contact_problem. cbn [pN pJ pB pK pWJT pb Nat.mul Nat.add rsum]. unfold ref_J; cbn [Nat.eqb ref_x ref_b].
  split; [field|]. f_equal; field.
Qed.
Lemma ref_r c i : (i < 4)%nat -> initial_r c 4 ref_J ref_J i = if Nat.eqb i 2 then c / 4 else c.
Proof.
  intros Hi. unfold initial_r, delassus_diag. destruct i as [|[|[|[|i]]]]; try lia; cbn [rsum]; unfold ref_J; cbn [Nat.eqb];
  match goal with |- context [Reqb ?d 0] => destruct (Reqb_spec d 0) as [E|_]; [exfalso; lra|] end; field.
Qed.
(** With the r-factors the solvers actually use (a constant over the diagonal of the Delassus matrix J W J^T) the
    result need not obey Coulomb's law: friction is not opposed to the sliding velocity. *)
Theorem C126_coulomb_refuted c order groups : 0 < c -> (forall g, Permutation (order g) g) -> Permutation (concat groups) (seq 0 1) ->
  exists (W J : mat) b mu x, let K := 1%nat in let WJT := mat_WJT 4 W J in
  (forall i j, W i j = if Nat.eqb i j then 1 else 0) /\ (forall k, mu k = 1) /\
  (forall s, stationary (4 * K) (scheme_sweep s K 4 J WJT b mu prox_sphere order groups) (initial_r c 4 J WJT) x) /\
  ~ contact_law (fun _ => mkV 1 1 1) K mu x (residual (contact_problem K 4 J WJT b mu prox_sphere) x).
Proof.
  intros Hc Ho Hg. exists (fun i j => if Nat.eqb i j then 1 else 0), ref_J, ref_b, (fun _ => 1), ref_x. cbv zeta.
  set (WJT := mat_WJT 4 _ ref_J).
  assert (EW : forall i j, (i < 4)%nat -> WJT i j = ref_J i j).
  { intros i j Hi. unfold WJT, mat_WJT. cbn [rsum]. unfold ref_J. destruct i as [|[|[|[|i]]]]; try lia; cbn [Nat.eqb];
    destruct j as [|[|[|[|j]]]]; cbn [Nat.eqb]; lra. }
  assert (ER : forall i, (i < 4)%nat -> initial_r c 4 ref_J WJT i = initial_r c 4 ref_J ref_J i).
  { intros i Hi. unfold initial_r, delassus_diag. rewrite (rsum_ext 4 (fun j => ref_J i j * WJT j i) (fun j => ref_J i j * ref_J j i)); auto. intros j Hj. rewrite EW; auto. }
  set (P := contact_problem 1 4 ref_J WJT ref_b (fun _ => 1) prox_sphere).
  assert (EQ : forall i, residual P ref_x i = residual (contact_problem 1 4 ref_J ref_J ref_b (fun _ => 1) prox_sphere) ref_x i).
  { intros i. unfold residual, delassus. f_equal. unfold P, contact_problem. cbn [pN pJ]. unfold mdotv. apply rsum_ext. intros j Hj. f_equal. unfold WJTx, mdotv. cbn [pB pK pWJT]. apply rsum_ext. intros l Hl. rewrite EW; auto. }
  destruct ref_residual as [E0 E1]. cbv zeta in E0, E1.
  assert (N0 : normal_of (residual P ref_x) 0 = 0) by (unfold normal_of in *; rewrite EQ; exact E0).
  assert (F0 : friction_of (residual P ref_x) 0 = mkV (-3/5) (-16/5) 0) by (unfold friction_of in *; rewrite !EQ; exact E1).
  assert (NF : vnorm (friction_of ref_x 0) = 1).
  { unfold vnorm, vdot, friction_of; cbn. replace (3/5 * (3/5) + 4/5 * (4/5) + 0 * 0) with 1 by field. apply sqrt_1. }
  split; [reflexivity|]. split; [reflexivity|]. split.
  - intros s. apply (C126_stationary s 1 4 ref_J WJT ref_b (fun _ => 1) order groups); auto.
    + intros i Hi. rewrite ER, ref_r by lia. destruct (Nat.eqb i 2); lra.
    + intros; lra.
    + intros k Hk. assert (k = 0%nat) by lia. subst k. fold P. rewrite N0, F0. split; [unfold signorini, normal_of; cbn; lra|].
      assert (EF : friction_of (initial_r c 4 ref_J WJT) 0 = mkV c (c / 4) c). { unfold friction_of. cbn [Nat.mul Nat.add]. rewrite !ER, !ref_r by lia. reflexivity. }
      rewrite EF. split; [rewrite NF; unfold normal_of; cbn; lra|]. intros g Hgn. unfold normal_of in Hgn; cbn [ref_x Nat.mul] in Hgn. rewrite Rmult_1_l in Hgn.
      assert (HC := cauchy g (friction_of ref_x 0)). rewrite NF in HC. revert HC Hgn. unfold friction_of; cbn [ref_x Nat.mul Nat.add]. clear - Hc.
      generalize (vnorm g). destruct g as [g1 g2 g3]. intros m. unfold vdot, vmul; cbn. intros HC Hm.
      assert (HH : g1 * (3/5) + g2 * (4/5) <= 1) by lra. apply (Rmult_le_compat_l c) in HH; [|lra].
      replace (g1 * (c * (-3/5)) + g2 * (c/4 * (-16/5)) + g3 * (c * 0)) with (- (c * (g1 * (3/5) + g2 * (4/5)))) by field. lra.
  - intros H. destruct (H 0%nat ltac:(lia)) as [_ [_ HD]]. fold P in HD. rewrite F0 in HD. specialize (HD (mkV 0 1 0)).
    assert (Hn : vnorm (mkV 0 1 0) <= 1 * normal_of ref_x 0).
    { unfold normal_of; cbn. unfold vnorm, vdot; cbn. replace (0 * 0 + 1 * 1 + 0 * 0) with 1 by ring. rewrite sqrt_1. lra. }
    specialize (HD Hn). unfold vdot, vmul, friction_of in HD; cbn in HD. lra.
Qed.

Lemma upto_mono d d' wt K mu x res : (forall k, (k < K)%nat -> 0 < vx (wt k) /\ 0 < vy (wt k) /\ 0 < vz (wt k)) -> (forall i, (i < 4 * K)%nat -> d i <= d' i) ->
  contact_law_upto d wt K mu x res -> contact_law_upto d' wt K mu x res.
Proof.
  intros Hw Hd H k Hk. destruct (H k Hk) as (H1 & H2 & H3 & H4 & H5). assert (D0 : normal_of d k <= normal_of d' k) by (apply Hd; lia).
  split; [auto|]. split; [lra|]. split; [intros Hp; specialize (H3 Hp); lra|]. split; [auto|].
  intros g Hg. specialize (H5 g Hg). eapply Rle_trans; [exact H5|]. apply Rplus_le_compat_l. apply Rmult_le_compat_r; [apply vnorm_nonneg|].
  destruct (Hw k Hk) as (W1 & W2 & W3). assert (D1 := Hd (4 * k + 1)%nat ltac:(lia)). assert (D2 := Hd (4 * k + 2)%nat ltac:(lia)). assert (D3 := Hd (4 * k + 3)%nat ltac:(lia)).
  unfold vdot, vmul, friction_of; cbn [vx vy vz]. assert (vx (wt k) * d (4 * k + 1)%nat <= vx (wt k) * d' (4 * k + 1)%nat) by (apply Rmult_le_compat_l; lra).
  assert (vy (wt k) * d (4 * k + 2)%nat <= vy (wt k) * d' (4 * k + 2)%nat) by (apply Rmult_le_compat_l; lra).
  assert (vz (wt k) * d (4 * k + 3)%nat <= vz (wt k) * d' (4 * k + 3)%nat) by (apply Rmult_le_compat_l; lra). lra.
Qed.
Lemma ninf_bound n v d : ninf n v <= d -> forall i, (i < Datatypes.S n)%nat -> Rabs (v i) <= d.
Proof. intros H i Hi. destruct (ninf_ok n v) as [_ B]. specialize (B i Hi). lra. Qed.
Lemma initial_r_pos N J WJT i : 0 <= delassus_diag N J WJT i -> 0 < initial_r 1 N J WJT i.
Proof. intros H. unfold initial_r. destruct (Reqb_spec (delassus_diag N J WJT i) 0); unfold Rdiv; rewrite Rmult_1_l; apply Rinv_0_lt_compat; lra. Qed.
Lemma Forall2_nth_l {A B} (R : A -> B -> Prop) l l' i a : Forall2 R l l' -> nth_error l i = Some a -> exists b, nth_error l' i = Some b /\ R a b.
Proof. intros H. revert i. induction H; intros [|i] Hi; cbn in *; try discriminate; eauto. assert (x = a) by congruence. subst. eauto. Qed.
Lemma swept_inits S Ps : Forall2 (swept S) Ps (map ps_init Ps).
Proof. induction Ps; cbn; constructor; auto. apply swept_init. Qed.
Lemma row_sum_nonneg P i : 0 <= row_sum P i.
Proof. apply rsum_nonneg. intros. apply Rabs_pos. Qed.

(** The rigid body solver stopped by its absolute tolerance (exit code 1): the multipliers it returns for a contact problem
    satisfy the law up to tolerance * (1/r + row sum of A), with r a positive multiple of the inverse diagonal of A. *)
Theorem C126_stopped S Ps res out : 0 < sp_nu_reduce S -> 0 < sp_nu_increase S -> 0 < sp_abs S -> rigid_solve S (map ps_init Ps) = (res, 1%nat, out) ->
  forall m K N J WJT b mu, let P := contact_problem K N J WJT b mu prox_sphere in
  nth_error Ps m = Some P -> (forall i, 0 <= delassus_diag N J WJT i) -> (forall k, (k < K)%nat -> 0 <= mu k) ->
  exists p c, nth_error out m = Some p /\ 0 < c /\ let r := fun i => c * initial_r 1 N J WJT i in (forall i, 0 < r i) /\
  contact_law_upto (fun i => sp_abs S * (/ r i + row_sum P i)) (friction_of r) K mu (ps_sol p) (residual P (ps_sol p)).
Proof.
  intros H1 H2 H0 E m K N J WJT b mu P Hm Hd Hmu. unfold rigid_solve in E.
  assert (L := swept_loop S Ps H1 H2 (sp_max_iter S) None (map ps_init Ps) (swept_inits S Ps)). rewrite E in L. destruct L as [LF LA]. specialize (LA eq_refl).
  destruct (Forall2_nth_l _ _ _ _ _ LF Hm) as (p & Hp & (_ & En & _ & _ & HS)).
  rewrite Forall_forall in LA. destruct (LA p (nth_error_In _ _ Hp)) as (me & Eme & Lme). destruct (HS me Eme) as (c & x0 & Hc & Esol & Emerit).
  exists p, c. split; [auto|]. split; [auto|]. cbv zeta. set (r := fun i => c * initial_r 1 N J WJT i).
  assert (Hr : forall i, 0 < r i) by (intros i; unfold r; apply Rmult_lt_0_compat; [auto|apply initial_r_pos; auto]). split; [auto|].
  change (fun i => c * initial_r 1 (pN P) (pJ P) (pWJT P) i) with r in Esol.
  assert (Hme : 0 <= me) by (rewrite Emerit; apply ninf_nonneg).
  assert (G : contact_law_upto (fun i => me * (/ r i + row_sum P i)) (friction_of r) K mu (ps_sol p) (residual P (ps_sol p))).
  { rewrite Esol. apply (sweep_upto K N J WJT b mu r x0 me); auto. intros j Hj. fold P. rewrite <- Esol. apply (ninf_bound (ps_n p) (fun i => ps_sol p i - x0 i)); [lra|].
    rewrite En. change (pB P * pK P)%nat with (4 * K)%nat. lia. }
  eapply upto_mono; [| |exact G].
  - intros k Hk. unfold friction_of; cbn. auto.
  - intros i Hi. cbv beta. apply Rmult_le_compat_r; [|lra]. assert (0 < / r i) by (apply Rinv_0_lt_compat; auto). assert (Q := row_sum_nonneg P i). lra.
Qed.

(** * C127 *)
Lemma map_find_body u x e nm A : bodies_indexed e -> find_body e nm = Some A ->
  find_body (set_bodies e (copy_to_bodies x u (e_bodies e))) nm =
  Some (with_pose (with_vel A (lin u A) (ang u A)) (read3 x (7 * b_idx A)) (read4 x (7 * b_idx A + 3))).
Proof.
  intros HI. unfold find_body. cbn [e_bodies set_bodies]. unfold copy_to_bodies, enum.
  assert (G : forall bs n, (forall k b, nth_error bs k = Some b -> b_idx b = (n + k)%nat) -> find (fun b => name_eqb (b_name b) nm) bs = Some A ->
    find (fun b => name_eqb (b_name b) nm) (map (fun kb => let '(k, b) := kb in with_pose (with_vel b (read3 u (6 * k)) (read3 u (6 * k + 3))) (read3 x (7 * k)) (read4 x (7 * k + 3))) (combine (seq n (length bs)) bs)) =
    Some (with_pose (with_vel A (lin u A) (ang u A)) (read3 x (7 * b_idx A)) (read4 x (7 * b_idx A + 3)))).
  { induction bs as [|b bs IH]; intros n Hn HF; [discriminate|]. cbn [length seq combine map find] in *. cbn [b_name with_pose with_vel].
    destruct (name_eqb (b_name b) nm) eqn:E.
    - apply some_eq in HF. subst A. assert (H0 := Hn 0%nat b eq_refl). rewrite Nat.add_0_r in H0. unfold lin, ang. rewrite H0. reflexivity.
    - apply IH; auto. intros k b' Hk. rewrite (Hn (S k) b' Hk). lia. }
  intros HF. apply (G (e_bodies e) 0%nat); auto.
Qed.
Lemma find_bvh e e1 nm A1 : Forall2 bvh_only (e_bodies e) (e_bodies e1) -> find_body e1 nm = Some A1 -> exists A tr, find_body e nm = Some A /\ A1 = with_bvh A tr.
Proof.
  unfold find_body. intros HB. induction HB as [|b b' l l' [tr ->] H IH]; cbn; [discriminate|]. destruct (name_eqb (b_name b) nm); auto. intros E. exists b, tr. split; congruence.
Qed.
Lemma vel_before e A : bodies_indexed e -> In A (e_bodies e) -> lin (get_velocity_vector (e_bodies e)) A = b_v A /\ ang (get_velocity_vector (e_bodies e)) A = b_w A.
Proof. intros HI HA. destruct (indexed_lt _ _ HI HA) as [Hn _]. unfold lin, ang. apply velocity_vector_block. auto. Qed.

(** the rows of the problem a contact poses, in terms of any velocity vector *)
Lemma contacts_parts dt st e P : contacts_initialize dt st e = Some P -> exists J g eps mu, contact_jacobian e = Some J /\
  contact_error (e_params e) dt (mdotv (6 * length (e_bodies e)) J (s_u st)) (e_contacts e) = Some g /\
  restitution_vector e = Some eps /\ friction_vector e = Some mu /\
  pB P = 4%nat /\ pK P = length (e_contacts e) /\ pN P = (6 * length (e_bodies e))%nat /\ pJ P = J /\ pprox P = contact_prox prox_sphere mu /\
  P = contact_problem (length (e_contacts e)) (6 * length (e_bodies e)) J (mat_WJT (6 * length (e_bodies e)) (s_W st) J) (pb P) mu prox_sphere /\
  forall i, pb P i = (1 + eps i) * mdotv (6 * length (e_bodies e)) J (s_u st) i + mdotv (6 * length (e_bodies e)) J (fun j => dt * s_duext st j) i + g i.
Proof.
  unfold contacts_initialize. destruct (contact_jacobian e) as [J|]; [|discriminate]. destruct (contact_error _ _ _ _) as [g|] eqn:Eg; [|discriminate].
  destruct (restitution_vector e) as [eps|]; [|discriminate]. destruct (friction_vector e) as [mu|]; [|discriminate].
  intros H. apply some_eq in H. subst P. exists J, g, eps, mu. repeat (split; [reflexivity || auto|]). reflexivity.
Qed.
Lemma friction_row e mu k c : friction_vector e = Some mu -> nth_error (e_contacts e) k = Some c ->
  exists i, contact_behavior e c = Some i /\ mu k = vx (i_mu i).
Proof.
  unfold friction_vector. destruct (map_opt _ (e_contacts e)) as [ms|] eqn:E; [|discriminate]. intros H Hk. apply some_eq in H. subst mu.
  assert (G := map_opt_nth _ _ _ k E). rewrite Hk in G. destruct (nth_error ms k) as [m|] eqn:Em.
  - destruct (contact_behavior e c) as [i|]; [|discriminate]. exists i. split; auto. rewrite (nth_error_nth _ _ _ Em). congruence.
  - exfalso. apply nth_error_None in Em. assert (HL := map_opt_length _ _ _ E). assert (k < length (e_contacts e))%nat by (apply nth_error_Some; congruence). lia.
Qed.
Lemma restitution_row e eps k c i : restitution_vector e = Some eps -> nth_error (e_contacts e) k = Some c -> contact_behavior e c = Some i ->
  eps (4 * k)%nat = bounce (e_params e) i /\ forall m, (0 < m < 4)%nat -> eps (4 * k + m)%nat = 0.
Proof.
  unfold restitution_vector, bounce. destruct (p_use_bounce (e_params e)); cbn [negb].
  2:{ intros H _ _. apply some_eq in H. subst eps. split; reflexivity. }
  destruct (map_opt _ (e_contacts e)) as [ms|] eqn:E; [|discriminate]. intros H Hk Hi. apply some_eq in H. subst eps.
  assert (D : forall m, (m < 4)%nat -> ((4 * k + m) mod 4 = m /\ (4 * k + m) / 4 = k)%nat).
  { intros m Hm. split.
    - rewrite Nat.add_comm, Nat.mul_comm, Nat.mod_add by lia. apply Nat.mod_small; auto.
    - rewrite Nat.add_comm, Nat.mul_comm, Nat.div_add by lia. rewrite Nat.div_small by auto. lia. }
  split.
  - replace (4 * k)%nat with (4 * k + 0)%nat by lia. destruct (D 0%nat ltac:(lia)) as [-> ->]. cbn [Nat.eqb].
    assert (G := map_opt_nth _ _ _ k E). rewrite Hk in G. destruct (nth_error ms k) as [m|] eqn:Em.
    + rewrite Hi in G. rewrite (nth_error_nth _ _ _ Em). congruence.
    + exfalso. apply nth_error_None in Em. assert (HL := map_opt_length _ _ _ E). assert (k < length (e_contacts e))%nat by (apply nth_error_Some; congruence). lia.
  - intros m Hm. destruct (D m ltac:(lia)) as [-> _]. destruct m as [|m]; [lia|]. reflexivity.
Qed.
Lemma error_row P dt v cs g k c : contact_error P dt v cs = Some g -> nth_error cs k = Some c ->
  g (4 * k)%nat = push_out P dt c (v (4 * k)%nat) /\ forall m, (0 < m < 4)%nat -> g (4 * k + m)%nat = 0.
Proof.
  intros H Hk. destruct (C63_contact_error P dt v cs g H) as [H0 H1]. unfold push_out. destruct (p_use_pre P); cbn [andb].
  2:{ split; [apply H0; auto|]. intros. apply H0; auto. }
  destruct (H1 eq_refl) as (_ & H2 & H3). destruct (H2 k c Hk) as [A1 A2]. split.
  - destruct (Rltb_spec (c_g c) (- p_min_gap P)) as [L|L]; cbn [andb]; [|apply A2; lra]. destruct (Rleb_spec (v (4 * k)%nat) 0) as [L'|L']; [apply A1; lra|apply A2; lra].
  - intros m Hm. apply H3. intros k0 _ E. lia.
Qed.

(** the contact problem a step of length dt poses to the solver, and the hinge problem *)
Definition posed_contacts (cd : engine -> option engine) (dt : R) (e : engine) : option problem :=
  do st <- copy_from_engine e; do e1 <- cd e; contacts_initialize dt st e1.
Definition posed_hinges (cd : engine -> option engine) (dt : R) (e : engine) : option problem :=
  do st <- copy_from_engine e; do e1 <- cd e; hinges_initialize dt st e1.
(** For every solver: after a step without joints, the residual A x + b of the multipliers x that the solver returned for
    the contact problem it was given is, contact by contact, the relative velocity after the step: along the normal
    plus the restitution coefficient times the velocity before plus the stabilisation term, along the tangents and
    about the normal as it is.  The friction coefficient of the contact is the one of the two materials. *)
Theorem C127_residual solver cd dt e e' : cd_ok cd -> step_with solver cd dt e = Some e' -> bodies_indexed e -> e_hinges e = [] -> e_contacts e' <> [] ->
  exists P mu, let x := hd vzeros (solver (e_params e) [P]) in let res := residual P x in posed_contacts cd dt e = Some P /\
  P = contact_problem (length (e_contacts e')) (pN P) (pJ P) (pWJT P) (pb P) mu prox_sphere /\
  forall k c, nth_error (e_contacts e') k = Some c -> exists A B A' B' s t n i,
    find_body e (c_A c) = Some A /\ find_body e (c_B c) = Some B /\ find_body e' (c_A c) = Some A' /\ find_body e' (c_B c) = Some B' /\
    frame_along (c_n c) s t n /\ get_interaction (e_lib e) (b_material A) (b_material B) = Some i /\ mu k = vx (i_mu i) /\
    let vn := vdot n (slip A B A B (c_p c)) in
    normal_of res k = vdot n (slip A B A' B' (c_p c)) + bounce (e_params e) i * vn + push_out (e_params e) dt c vn /\
    friction_of res k = mkV (vdot s (slip A B A' B' (c_p c))) (vdot t (slip A B A' B' (c_p c))) (vdot n (vsub (b_w B') (b_w A'))).
Proof.
  intros Hcd H HI Hh Hc. destruct (step_decompose _ _ _ _ _ Hcd H) as (tr & HF).
  destruct HF as (Hst & Hcd1 & _ & HC2 & HH1 & _ & Hsol & _ & _ & He').
  set (st := t_state tr) in *. set (e1 := t_engine tr) in *.
  destruct (Hcd _ _ Hcd1) as (HB & Eh1 & _ & _ & EL & EP & _).
  assert (Ec : e_contacts e' = e_contacts e1) by (rewrite He'; reflexivity). rewrite Ec in *.
  destruct (HC2 Hc) as (P & HP & Ecp). rewrite (HH1 ltac:(congruence)) in *. rewrite Ecp in *. cbn [app] in *.
  specialize (Hsol ltac:(discriminate)). rewrite EP in Hsol.
  assert (HI1 := indexed_bvh _ _ HB HI). assert (HL := Forall2_len _ _ _ HB).
  destruct (copy_from_eq _ _ Hst) as (Ex & Eu & EW & Ed).
  destruct (contacts_parts _ _ _ _ HP) as (J & g & eps & mu & EJ & Eg & Ee & Em & EB & EK & EN & EPJ & Epx & EPP & Epb).
  exists P, mu. cbv zeta. set (x := hd vzeros (solver (e_params e) [P])).
  split. { unfold posed_contacts. fold st in Hst. rewrite Hst, Hcd1. exact HP. }
  split. { rewrite EPP. cbn [pN pJ pWJT pb contact_problem]. reflexivity. }
  set (N := (6 * length (e_bodies e1))%nat) in *.
  set (u' := fun j => s_u st j + (dt * s_duext st j + mdotv N (s_W st) (total_impulse (t_pairs tr)) j)) in *.
  assert (HW : forall j, WJTx P x j = mdotv N (s_W st) (total_impulse (t_pairs tr)) j).
  { intros j. destruct (contacts_assembled _ _ _ _ HP) as [PN PW]. fold N in PN, PW. rewrite (WJTx_impulse P (s_W st) x j) by (rewrite PN; exact PW). rewrite PN.
    apply mdotv_ext. intros l _. unfold t_pairs, x. rewrite Ecp, (HH1 ltac:(congruence)), Hsol. cbn [app combine]. destruct (solver (e_params e) [P]) as [|x0 xs]; cbn [hd combine total_impulse fold_right fst snd].
    - unfold impulse. apply rsum_zero. intros i _. unfold vzeros. ring.
    - destruct xs; cbn [combine fold_right]; unfold total_impulse; cbn [fold_right fst snd]; ring. }
  assert (HR : forall i, residual P x i = mdotv N J u' i + eps i * mdotv N J (s_u st) i + g i).
  { intros i. unfold residual, delassus. rewrite EN, EPJ, Epb. fold N. rewrite (mdotv_ext N J (WJTx P x) _ i (fun j _ => HW j)).
    unfold u'. rewrite (mdotv_plus N J (s_u st)). rewrite (mdotv_plus N J (fun j => dt * s_duext st j)). ring. }
  intros k c Hk. destruct (contact_row e1 J k c HI1 EJ Hk) as (A1 & B1 & s & t & n & EA1 & EB1 & EO & Hrow). fold N in Hrow.
  destruct (find_bvh _ _ _ _ HB EA1) as (A & ta & EA & ->). destruct (find_bvh _ _ _ _ HB EB1) as (B & tb & EB' & ->).
  destruct (friction_row _ _ _ _ Em Hk) as (i & Ei & Emu). destruct (restitution_row _ _ _ _ _ Ee Hk Ei) as [R0 R1]. destruct (error_row _ _ _ _ _ _ _ Eg Hk) as [G0 G1].
  rewrite EP in R0, G0. unfold contact_behavior in Ei. rewrite EA1, EB1 in Ei. rewrite EL in Ei. cbn [b_material with_bvh] in Ei.
  set (xp := match t_post tr with Some d => position_update 1 (e_bodies e1) d (position_update dt (e_bodies e1) u' (s_x st)) | None => position_update dt (e_bodies e1) u' (s_x st) end) in He'.
  exists A, B. eexists. eexists. exists s, t, n, i. split; [auto|]. split; [auto|].
  split. { rewrite He'. apply map_find_body; eauto. } split. { rewrite He'. apply map_find_body; eauto. }
  split; [apply orthonormal_some; auto|]. split; [auto|]. split; [auto|].
  assert (HinA := proj1 (find_body_spec _ _ _ EA)). assert (HinB := proj1 (find_body_spec _ _ _ EB')).
  destruct (vel_before e A HI HinA) as [VA WA]. destruct (vel_before e B HI HinB) as [VB WB]. rewrite <- Eu in VA, WA, VB, WB.
  assert (S0 : vsub (velocity_at (s_u st) (with_bvh B tb) (c_p c)) (velocity_at (s_u st) (with_bvh A ta) (c_p c)) = slip A B A B (c_p c)).
  { unfold velocity_at, slip. change (lin (s_u st) (with_bvh B tb)) with (lin (s_u st) B). change (ang (s_u st) (with_bvh B tb)) with (ang (s_u st) B).
    change (lin (s_u st) (with_bvh A ta)) with (lin (s_u st) A). change (ang (s_u st) (with_bvh A ta)) with (ang (s_u st) A). rewrite VA, WA, VB, WB. reflexivity. }
  destruct (Hrow (s_u st)) as (P0 & _). destruct (Hrow u') as (Q0 & Q1 & Q2 & Q3). cbv zeta in P0, Q0, Q1, Q2, Q3. rewrite S0 in P0.
  cbv zeta. split.
  - unfold normal_of. rewrite HR, Q0, R0, P0, G0, P0. reflexivity.
  - unfold friction_of. rewrite !HR, Q1, Q2, Q3. rewrite (R1 1%nat), (R1 2%nat), (R1 3%nat), (G1 1%nat), (G1 2%nat), (G1 3%nat) by lia.
    cbn [b_w with_pose with_vel]. f_equal; rewrite Rmult_0_l, !Rplus_0_r; reflexivity.
Qed.

(** Consequently, when the multipliers are a solution of the contact problem (a sweep leaves them alone), every contact
    obeys Signorini's condition with Newton's impact law, and Coulomb friction in the weights of the sweep. *)
Theorem C127_contact_law solver cd dt e e' : cd_ok cd -> step_with solver cd dt e = Some e' -> bodies_indexed e -> e_hinges e = [] -> e_contacts e' <> [] ->
  (forall key i, lib_get (e_lib e) key = Some i -> 0 <= vx (i_mu i)) ->
  exists P, posed_contacts cd dt e = Some P /\ let x := hd vzeros (solver (e_params e) [P]) in
  forall r, (forall i, 0 < r i) -> stationary (4 * length (e_contacts e')) (gs_sweep P) r x ->
  forall k c, nth_error (e_contacts e') k = Some c -> exists A B A' B' s t n i,
    find_body e (c_A c) = Some A /\ find_body e (c_B c) = Some B /\ find_body e' (c_A c) = Some A' /\ find_body e' (c_B c) = Some B' /\
    frame_along (c_n c) s t n /\ get_interaction (e_lib e) (b_material A) (b_material B) = Some i /\
    let vn := vdot n (slip A B A B (c_p c)) in let after := slip A B A' B' (c_p c) in
    signorini (normal_of x k) (vdot n after + bounce (e_params e) i * vn + push_out (e_params e) dt c vn) /\
    dissipates_most (vx (i_mu i)) (normal_of x k) (friction_of x k)
      (vmul (friction_of r k) (mkV (vdot s after) (vdot t after) (vdot n (vsub (b_w B') (b_w A'))))).
Proof.
  intros Hcd H HI Hh Hc Hmu. destruct (C127_residual _ _ _ _ _ Hcd H HI Hh Hc) as (P & mu & HPo & EP & HR). exists P. split; [exact HPo|]. cbv zeta in *.
  set (x := hd vzeros (solver (e_params e) [P])) in *. intros r Hr HS k c Hk.
  destruct (HR k c Hk) as (A & B & A' & B' & s & t & n & i & H1 & H2 & H3 & H4 & H5 & H6 & H7 & H8 & H9).
  exists A, B, A', B', s, t, n, i. do 6 (split; [auto|]). rewrite <- H8, <- H9, <- H7. clear H8 H9.
  assert (Hlt : (k < length (e_contacts e'))%nat) by (apply nth_error_Some; congruence).
  assert (Hm : 0 <= mu k). { rewrite H7. unfold get_interaction in H6. destruct (lib_get (e_lib e) (pair_key (b_material A) (b_material B))) eqn:E; [assert (i0 = i) by congruence; subst|]; eapply Hmu; eauto. }
  assert (HB : block_ok P r x k).
  { assert (EB : pB P = 4%nat) by (rewrite EP; reflexivity). assert (EK : pK P = length (e_contacts e')) by (rewrite EP; reflexivity).
    apply (gs_stationary P r x); rewrite ?EB, ?EK; auto. }
  assert (HQ := contact_block_ok (length (e_contacts e')) (pN P) (pJ P) (pWJT P) (pb P) mu r x k Hlt (fun i _ => Hr i) Hm). cbv zeta in HQ. rewrite <- EP in HQ. apply HQ. exact HB.
Qed.
