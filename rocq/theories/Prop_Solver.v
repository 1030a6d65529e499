(** C42 - C47: contact solvers, r-factor control, contact graph and colourings. *)
From Coq Require Import FunctionalExtensionality Permutation.
From Verif Require Import Base ProxModel ProxSpec ProxProofs SolverModel SolverSpec SolverProofs ColorModel ColorProofs.
Open Scope R_scope.

(** the friction solvers the code offers for the schemes *)
Definition friction_solver_ok (fs : vec3 -> R -> R -> vec3) : Prop := fs = prox_sphere \/ fs = prox_origin.
Lemma friction_cone fs : friction_solver_ok fs -> cone_op fs.
Proof. intros [-> | ->]; [apply cone_op_sphere|apply cone_op_origin]. Qed.

Lemma cone_zeros K mu : cone_ok K mu vzeros.
Proof.
  intros k Hk. unfold in_cone, normal_of, friction_of, vzeros. split; [lra|].
  replace (vnorm (mkV 0 0 0)) with 0; [lra|]. symmetry. apply vnorm_zero_iff. reflexivity.
Qed.

(** ** C42 *)
Lemma gs_sweep_cone K N J WJT b mu fs r x : cone_op fs -> (forall k, (k < K)%nat -> 0 <= mu k) ->
  cone_ok K mu (gs_sweep (contact_problem K N J WJT b mu fs) r x).
Proof.
  intros F Hm k Hk. unfold gs_sweep. rewrite gs_fold by apply seq_lt. cbn [fst]. unfold gs_spec.
  apply (fold_cone mu K).
  - intros x' k' Hk'. unfold gs_block. cbn [pB pprox contact_problem].
    eexists. split; [reflexivity|]. apply contact_prox_cone; auto.
  - apply seq_lt.
  - left. apply in_seq. cbn. lia.
Qed.

Theorem C42_gauss_seidel K N J WJT b mu fs order groups S x st :
  friction_solver_ok fs -> (forall k, (k < K)%nat -> 0 <= mu k) ->
  prox_solve GaussSeidel K N J WJT b mu fs order groups S = Some (x, st) -> cone_ok K mu x.
Proof.
  intros F Hm E. apply friction_cone in F. eapply (solve_inv (cone_ok K mu)); [| |exact E].
  - intros r y _. apply gs_sweep_cone; auto.
  - apply cone_zeros.
Qed.

Lemma pgs_cone K N J WJT b mu fs order r w0 : cone_op fs -> (forall k, (k < K)%nat -> 0 <= mu k) ->
  (forall g, Permutation (order g) g) ->
  forall groups, Forall (fun k => (k < K)%nat) (concat groups) -> forall xd k,
  (In k (concat groups) \/ cone_at mu (fst xd) k) ->
  cone_at mu (fst (fold_left (pgs_group (contact_problem K N J WJT b mu fs) order r w0) groups xd)) k.
Proof.
  intros F Hm Ho. induction groups as [|g gs IH]; intros Hlt xd k C; cbn in *.
  - destruct C as [[]|C]; auto.
  - apply Forall_app in Hlt as [H1 H2]. apply IH; auto. rewrite in_app_iff in C.
    destruct (in_dec Nat.eq_dec k (concat gs)) as [I|I]; [left; auto|right].
    unfold pgs_group. destruct g as [|f g']; [destruct C as [[C|C]|C]; auto; contradiction|].
    set (g := f :: g') in *. rewrite (surjective_pairing xd), pgs_fold_x. cbn [fst].
    apply (fold_cone mu K).
    + intros x' k' Hk'. unfold pstep. cbn [pB pprox contact_problem].
      eexists. split; [reflexivity|]. apply contact_prox_cone; auto.
    + rewrite Forall_forall in *. intros k' Hk'. apply H1. eapply Permutation_in; [apply Ho|auto].
    + destruct C as [[C|C]|C]; [left|contradiction|right; auto].
      eapply Permutation_in; [apply Permutation_sym, Ho|auto].
Qed.

Lemma seq_map_div K : map (fun b => Nat.div (fst b) 4) (map (fun k => (4 * k, 4 * k + 4))%nat (seq 0 K)) = seq 0 K.
Proof.
  rewrite map_map. rewrite <- (map_id (seq 0 K)) at 2. apply map_ext. intro k. cbn [fst].
  rewrite Nat.mul_comm. apply Nat.div_mul. lia.
Qed.

Definition block_of_contact (k : nat) : nat * nat := (4 * k, 4 * k + 4)%nat.
Lemma greedy_as_group_all K C :
  greedy_groups K C = group_all (fun b => C (Nat.div (fst b) 4)) (map block_of_contact (seq 0 K)).
Proof.
  unfold greedy_groups, group_all. generalize (@nil (Z * list (nat * nat))) as acc.
  induction (seq 0 K) as [|k l IH]; intro acc; cbn [map fold_left]; auto. rewrite IH. f_equal.
  unfold block_of_contact. cbn [fst]. f_equal. f_equal. rewrite Nat.mul_comm. symmetry. apply Nat.div_mul. lia.
Qed.
Lemma concat_group_contacts gs : concat (group_contacts gs) = map (fun b => Nat.div (fst b) 4) (concat (map snd gs)).
Proof.
  unfold group_contacts. induction gs as [|g gs IH]; cbn [map concat]; auto. rewrite map_app, IH. reflexivity.
Qed.
Lemma greedy_perm K C : Permutation (concat (group_contacts (greedy_groups K C))) (seq 0 K).
Proof.
  rewrite concat_group_contacts, greedy_as_group_all.
  destruct (group_all_ok (fun b => C (Nat.div (fst b) 4)) (map block_of_contact (seq 0 K))) as (_ & P & _).
  rewrite P. unfold block_of_contact. rewrite seq_map_div. reflexivity.
Qed.

(** parallel Gauss-Seidel with the groups made from any colouring, the blocks of a group
    executed in any order *)
Theorem C42_parallel_gauss_seidel K N J WJT b mu fs order C S x st :
  friction_solver_ok fs -> (forall k, (k < K)%nat -> 0 <= mu k) -> (forall g, Permutation (order g) g) ->
  prox_solve ParallelGaussSeidel K N J WJT b mu fs order (group_contacts (greedy_groups K C)) S = Some (x, st) ->
  cone_ok K mu x.
Proof.
  intros F Hm Ho E. apply friction_cone in F. eapply (solve_inv (cone_ok K mu)); [| |exact E].
  - intros r y _ k Hk. unfold pgs_sweep. apply (pgs_cone K N J WJT b mu fs order r); auto.
    + apply Forall_forall. intros k' H. apply (Permutation_in _ (greedy_perm K C)) in H. apply in_seq in H. lia.
    + left. apply (Permutation_in _ (Permutation_sym (greedy_perm K C))). apply in_seq. lia.
  - apply cone_zeros.
Qed.

Theorem C42_hybrid_jacobi K N J WJT b mu fs order groups S x st :
  friction_solver_ok fs -> (forall k, (k < K)%nat -> 0 <= mu k) -> (forall g, Permutation (order g) g) ->
  prox_solve ParallelJacobiHybrid K N J WJT b mu fs order groups S = Some (x, st) -> cone_ok K mu x.
Proof.
  intros F Hm Ho E. apply friction_cone in F. eapply (solve_inv (cone_ok K mu)); [| |exact E].
  - intros r y _ k Hk. unfold jacobi_sweep. apply (fold_cone mu K).
    + intros x' k' Hk'. unfold jacobi_step. eexists. split; [reflexivity|]. cbn. unfold in_cone.
      split; [apply Rmax_l|]. rewrite eta3. apply F; auto. apply Rmax_l.
    + apply Forall_forall. intros k' H. apply (Permutation_in _ (Ho _)) in H. apply in_seq in H. lia.
    + left. apply (Permutation_in _ (Permutation_sym (Ho _))). apply in_seq. lia.
  - apply cone_zeros.
Qed.

(** the rigid-body contact problem, solved together with any other problems (hinges):
    whatever the iteration count, every problem keeps its friction cone *)
Theorem C42_rigid S K N J WJT b mu others res code out p :
  (forall k, (k < K)%nat -> 0 <= mu k) ->
  rigid_solve S (ps_init (contact_problem K N J WJT b mu prox_sphere) :: others) = (res, code, p :: out) ->
  cone_ok K mu (ps_sol p).
Proof.
  intros Hm E. unfold rigid_solve in E.
  set (P := contact_problem K N J WJT b mu prox_sphere) in *.
  (* track the head of the list *)
  assert (H : forall fuel gl q qs, ps_sweep q = gs_sweep P -> cone_ok K mu (ps_sol q) ->
     exists q' qs', snd (rigid_loop S fuel gl (q :: qs)) = q' :: qs' /\ cone_ok K mu (ps_sol q')).
  { induction fuel as [|fuel IH]; intros gl q qs Hs Hc; cbn [rigid_loop]; [exists q, qs; auto|].
    cbn [map]. set (q1 := fst (ps_step S q)). set (qs1 := map fst (map (ps_step S) qs)).
    assert (Hq : ps_sweep q1 = gs_sweep P /\ cone_ok K mu (ps_sol q1)).
    { unfold q1, ps_step. destruct (worse _ _); cbn; split; auto. rewrite Hs.
      apply gs_sweep_cone; auto. apply cone_op_sphere. }
    destruct Hq as [Q1 Q2]. destruct (Rltb _ _); [exists q1, qs1; auto|]. destruct (rel_conv _ _ _); [exists q1, qs1; auto|].
    match goal with |- context [rigid_loop S fuel ?g _] => specialize (IH g q1 qs1 Q1 Q2); destruct (rigid_loop S fuel g (q1 :: qs1)) as [[r0 c0] o0] end.
    exact IH. }
  destruct (H (sp_max_iter S) None (ps_init P) others eq_refl (cone_zeros K mu)) as (q' & qs' & E' & C).
  rewrite E in E'. cbn in E'. assert (p = q') by congruence. subst. exact C.
Qed.

(** Plain parallel Jacobi does not keep the cone: one contact, three iterations. *)
Section JacobiCounterexample.
Definition cJ : mat := fun i j => match i, j with 0%nat, 0%nat => 1 | 1%nat, 0%nat => 18 | 1%nat, 1%nat => 1 | _, _ => 0 end.
Definition cWJT : mat := fun j i => cJ i j.
Definition cb : vec := fun i => match i with 0%nat => -10 | 1%nat => -32500 | _ => 0 end.
Definition cmu : vec := fun _ => 9/10.
Definition cS : sparams := mkSP 3 (1/1000) (1/1000) (1/2) 2 (1/1000).
Definition v2 (a c : R) : vec := fun i => match i with 0%nat => a | 1%nat => c | _ => 0 end.
Definition cr : vec := fun i => match i with 0%nat => 1/10 | 1%nat => 1/3250 | _ => 1/10 end.

Lemma cr_ok : initial_r (1/10) 2 cJ cWJT = cr.
Proof.
  extensionality i. unfold initial_r, delassus_diag, cWJT, cr. destruct i as [|[|i]]; cbn.
  - destruct (Reqb_spec (0 + 1 * 1 + 0 * 0) 0); lra.
  - destruct (Reqb_spec (0 + 18 * 18 + 1 * 1) 0); lra.
  - destruct (Reqb_spec (0 + 0 * 0 + 0 * 0) 0); lra.
Qed.
Lemma prox_sphere_line t m x : 0 < m -> 0 < x -> m * x < t -> prox_sphere (mkV t 0 0) m x = mkV (m * x) 0 0.
Proof.
  intros Hm Hx Ht. unfold prox_sphere; cbn [vx vy vz]. destruct (Rleb_spec x 0); [lra|].
  assert (0 < m * x) by nra.
  destruct (Rleb_spec (t * t + 0 * 0 + 0 * 0) (m * x * (m * x))); [nra|].
  replace (t * t + 0 * 0 + 0 * 0) with (t * t) by ring. rewrite sqrt_square by lra.
  apply vec3_eq; cbn; field; lra.
Qed.
Lemma prox_sphere_zero z m : prox_sphere z m 0 = mkV 0 0 0.
Proof. unfold prox_sphere. destruct (Rleb_spec 0 0); [reflexivity|lra]. Qed.
Lemma cstep a c a' c' : 0 <= a' ->
  a' = a - 1/10 * (a + 18 * c - 10) ->
  prox_sphere (mkV (c - 1/3250 * (18 * a + 325 * c - 32500)) 0 0) (9/10) a = mkV c' 0 0 ->
  jacobi_sweep 1 2 cJ cWJT cb cmu prox_sphere false [0%nat] cr (v2 a c) = v2 a' c'.
Proof.
  intros Ha Ea Ef. unfold jacobi_sweep. cbn [fold_left]. unfold jacobi_step. cbn [Nat.mul Nat.add].
  match goal with |- set_block 4 0 _ (fun i => match i with O => ?xn | _ => _ end) = _ =>
    assert (Exn : xn = a') end.
  { unfold cb, cr, v2, mdotv, cWJT. cbn. rewrite Rmax_right; lra. }
  rewrite Exn.
  match goal with |- context [prox_sphere (mkV ?p ?q ?s) _ _] =>
    assert (E1 : p = c - 1/3250 * (18 * a + 325 * c - 32500)) by (unfold cb, cr, v2, mdotv, cWJT; cbn; lra);
    assert (E2 : q = 0) by (unfold cb, cr, v2, mdotv, cWJT; cbn; lra);
    assert (E3 : s = 0) by (unfold cb, cr, v2, mdotv, cWJT; cbn; lra); rewrite E1, E2, E3 end.
  change (cmu 0%nat) with (9/10). change (v2 a c 0%nat) with a. rewrite Ef.
  extensionality j. destruct j as [|[|[|[|j]]]]; reflexivity.
Qed.
Lemma ninf_v2 a c a' c' : ninf 3 (fun i => v2 a c i - v2 a' c' i) = Rmax (Rabs (a - a')) (Rabs (c - c')).
Proof.
  unfold v2. cbn. replace (0 - 0) with 0 by lra. rewrite Rabs_R0.
  assert (0 <= Rmax (Rabs (a - a')) (Rabs (c - c'))) by (eapply Rle_trans; [apply Rabs_pos|apply Rmax_l]).
  rewrite !(Rmax_left _ 0); auto. rewrite (Rmax_left _ 0); auto.
Qed.
Lemma Rmax_dec a c m : (a = m /\ c <= m) \/ (c = m /\ a <= m) -> Rmax a c = m.
Proof. intros [[-> H]|[-> H]]; [apply Rmax_left; auto|apply Rmax_right; auto]. Qed.

Theorem C42_jacobi_refuted :
  exists K N J WJT b mu order groups S x st,
    (forall k, 0 <= mu k) /\ (forall g, Permutation (order g) g) /\
    prox_solve ParallelJacobi K N J WJT b mu prox_sphere order groups S = Some (x, st) /\ ~ cone_ok K mu x.
Proof.
  exists 1%nat, 2%nat, cJ, cWJT, cb, cmu, (fun g => g), [], cS.
  assert (S1 : jacobi_sweep 1 2 cJ cWJT cb cmu prox_sphere false [0%nat] cr vzeros = v2 1 0).
  { replace vzeros with (v2 0 0) by (extensionality j; destruct j as [|[|j]]; reflexivity).
    apply cstep; [lra|lra|]. apply prox_sphere_zero. }
  assert (S2 : jacobi_sweep 1 2 cJ cWJT cb cmu prox_sphere false [0%nat] cr (v2 1 0) = v2 (19/10) (9/10)).
  { apply cstep; [lra|lra|]. rewrite prox_sphere_line by lra. f_equal; lra. }
  assert (S3 : jacobi_sweep 1 2 cJ cWJT cb cmu prox_sphere false [0%nat] cr (v2 (19/10) (9/10)) = v2 (109/100) (171/100)).
  { apply cstep; [lra|lra|]. rewrite prox_sphere_line by lra. f_equal; lra. }
  assert (M1 : ninf 3 (fun i => v2 1 0 i - vzeros i) = 1).
  { replace vzeros with (v2 0 0) by (extensionality j; destruct j as [|[|j]]; reflexivity).
    rewrite ninf_v2. apply Rmax_dec. left. rewrite !Rabs_right by lra. lra. }
  assert (M2 : ninf 3 (fun i => v2 (19/10) (9/10) i - v2 1 0 i) = 9/10).
  { rewrite ninf_v2. apply Rmax_dec. left. rewrite !Rabs_right by lra. lra. }
  assert (M3 : ninf 3 (fun i => v2 (109/100) (171/100) i - v2 (19/10) (9/10) i) = 81/100).
  { rewrite ninf_v2. apply Rmax_dec. left. rewrite Rabs_left, Rabs_right by lra. lra. }
  eexists. eexists. split; [intro; unfold cmu; lra|]. split; [auto|]. split.
  - unfold prox_solve. rewrite cr_ok. cbn [scheme_sweep Nat.mul Nat.add seq].
    unfold solve. cbn [sp_max_iter cS]. f_equal.
    cbn [solve_loop]. cbn [sp_abs sp_rel sp_nu_reduce sp_nu_increase sp_small cS].
    rewrite S1, M1. destruct (Rltb_spec 1 (1/1000)); [lra|]. cbn [rel_conv worse slow].
    rewrite S2, M2. destruct (Rltb_spec (9/10) (1/1000)); [lra|].
    rewrite Rabs_left by lra. destruct (Rltb_spec (- (9/10 - 1)) (1/1000 * 1)); [lra|].
    destruct (Rltb_spec 1 (9/10)); [lra|]. destruct (Rltb_spec (1 - 9/10) (1/1000)); [lra|].
    rewrite S3, M3. destruct (Rltb_spec (81/100) (1/1000)); [lra|].
    rewrite Rabs_left by lra. destruct (Rltb_spec (- (81/100 - 9/10)) (1/1000 * (9/10))); [lra|].
    destruct (Rltb_spec (9/10) (81/100)); [lra|]. destruct (Rltb_spec (9/10 - 81/100) (1/1000)); [lra|].
    reflexivity.
  - intro C. specialize (C 0%nat ltac:(lia)). destruct C as [_ C]. unfold friction_of, normal_of, cmu in C. cbn in C.
    unfold vnorm, vdot in C; cbn [vx vy vz] in C.
    replace (171/100 * (171/100) + 0 * 0 + 0 * 0) with (171/100 * (171/100)) in C by ring.
    rewrite sqrt_square in C by lra. lra.
Qed.
End JacobiCounterexample.

(** what plain Jacobi does guarantee: normal forces are never negative *)
Theorem C42_jacobi_normal_partial K N J WJT b mu fs order groups S x st :
  (forall g, Permutation (order g) g) ->
  prox_solve ParallelJacobi K N J WJT b mu fs order groups S = Some (x, st) ->
  forall k, (k < K)%nat -> 0 <= normal_of x k.
Proof.
  intros Ho E. eapply (solve_inv (fun x => forall k, (k < K)%nat -> 0 <= normal_of x k)); [| |exact E].
  - intros r y _ k Hk. unfold jacobi_sweep.
    assert (I : In k (order (seq 0 K))).
    { apply (Permutation_in _ (Permutation_sym (Ho _))). apply in_seq. lia. }
    assert (G : forall z ks y0 x0, (In k ks \/ 0 <= normal_of y0 k) -> 0 <= normal_of (fold_left (jacobi_step fs mu false z x0) ks y0) k).
    { intro z. induction ks as [|k0 ks IH]; intros y0 x0 C; cbn [fold_left].
      - destruct C as [[]|C]; auto.
      - apply IH. destruct (Nat.eq_dec k0 k) as [->|Ne].
        + right. unfold jacobi_step, normal_of. replace (4*k)%nat with (4*k+0)%nat by lia.
          rewrite set_block_in by lia. apply Rmax_l.
        + destruct C as [[C|C]|C]; [congruence|left; auto|right]. unfold jacobi_step, normal_of in *.
          replace (4*k)%nat with (4*k+0)%nat in * by lia. rewrite set_block_other by (auto; lia). auto. }
    apply G. left; auto.
  - intros k _. unfold normal_of, vzeros. lra.
Qed.

(** ** C43 *)
Theorem C43_control sweep len S r0 x st : (0 < len)%nat -> solve sweep len S r0 = Some (x, st) ->
  (* at most max_iterations sweeps, exit codes *)
  (length (st_hist st) <= sp_max_iter S)%nat /\
  ((st_exitcode st = 0%nat /\ length (st_hist st) = sp_max_iter S /\ st_iterations st = sp_max_iter S) \/
   (exists e, st_hist st = firstn (st_iterations st) (st_hist st) ++ [e] /\
      ((st_exitcode st = 1%nat /\ it_merit e < sp_abs S) \/
       (st_exitcode st = 2%nat /\ exists l, last_merit (firstn (st_iterations st) (st_hist st)) = Some l /\
          Rabs (it_merit e - l) < sp_rel S * l)))) /\
  (* the returned solution is the last accepted iterate, or the zero vector *)
  x = last_x (firstn (st_iterations st) (st_hist st)) /\
  (* every sweep starts from the last accepted iterate (exact roll-back); the recorded merit is
     the largest change *)
  (forall h1 e h2, st_hist st = h1 ++ e :: h2 ->
     it_x e = sweep (it_r e) (last_x h1) /\ is_max_abs len (fun i => it_x e i - last_x h1 i) (it_merit e)) /\
  (* rejected exactly when the merit is above that of the last accepted iterate *)
  (forall h1 e h2, st_hist st = h1 ++ e :: h2 -> (length h1 < st_iterations st)%nat ->
     (it_reject e = true <-> exists l, last_merit h1 = Some l /\ l < it_merit e)) /\
  (* accepted merits never increase *)
  (forall h1 a h2 e h3, st_hist st = h1 ++ a :: h2 ++ e :: h3 -> (length (h1 ++ a :: h2) < st_iterations st)%nat ->
     it_reject a = false -> it_reject e = false -> it_merit e <= it_merit a).
Proof.
  intros Hlen E. destruct len as [|n]; [lia|]. unfold solve in E.
  assert (E' : solve_loop sweep n S (sp_max_iter S) 0 vzeros vzeros r0 None = (x, st)) by (destruct (sp_max_iter S); congruence).
  apply loop_spec in E'; [|lia]. destruct E' as [L1 L2 L3 L4 L5 L6].
  fold (last_x) in *. change (lastx vzeros) with last_x in *. change (lastm None) with last_merit in *.
  rewrite Nat.sub_0_r in L3.
  assert (HX : (length (st_hist st) <= sp_max_iter S)%nat).
  { destruct L4 as [(_ & _ & L)|(h & e & L & _ & L' & _)]; [lia|]. rewrite L, app_length. cbn. lia. }
  assert (Rej : forall h1 e h2, st_hist st = h1 ++ e :: h2 -> (length h1 < st_iterations st)%nat ->
     it_reject e = worse (it_merit e) (last_merit h1)).
  { intros h1 e h2 Eh Hl. apply (L2 h1 e h2 Eh). lia. }
  split; [exact HX|]. split.
  { destruct L4 as [(A & B & D)|(h & e & A & B & D & G)]; [left; auto|right].
    exists e. assert (Fh : firstn (st_iterations st) (st_hist st) = h).
    { rewrite A. rewrite <- B, Nat.add_0_r. rewrite firstn_app, Nat.sub_diag, firstn_all. cbn. apply app_nil_r. }
    rewrite Fh. split; auto. destruct G as [G|[G1 G2]]; [left; auto|right]. split; auto.
    unfold rel_conv in G2. destruct (last_merit h) as [l|]; [|discriminate]. exists l. split; auto. apply Rltb_true; auto. }
  split; [exact L3|]. split.
  { intros h1 e h2 Eh. destruct (L1 h1 e h2 Eh) as [A B]. split; auto. rewrite B. apply ninf_ok. }
  split.
  { intros h1 e h2 Eh Hl. rewrite (Rej h1 e h2 Eh Hl). unfold worse. destruct (last_merit h1) as [l|].
    - rewrite Rltb_true. split; [intro; exists l; auto|]. intros [l' [El Hl']]. congruence.
    - split; [discriminate|]. intros [l' [El _]]. discriminate. }
  intros h1 a h2 e h3 Eh Hl Ra Re.
  assert (Ch : exists m, lastm (Some (it_merit a)) h2 = Some m /\ m <= it_merit a).
  { apply lastm_mono. intros g1 e' g2 Eg Re'.
    assert (W : it_reject e' = worse (it_merit e') (last_merit (h1 ++ a :: g1))).
    { apply (Rej _ e' (g2 ++ e :: h3)).
      - rewrite Eh, Eg. rewrite <- !app_assoc. cbn. reflexivity.
      - rewrite app_length in *. cbn in *. rewrite Eg, app_length in Hl. cbn in Hl. lia. }
    rewrite Re' in W. symmetry in W. replace (last_merit (h1 ++ a :: g1)) with (lastm (Some (it_merit a)) g1) in W; auto.
    unfold last_merit, lastm. rewrite fold_left_app. cbn. rewrite Ra. reflexivity. }
  destruct Ch as [m [Em Lm]].
  assert (W : it_reject e = worse (it_merit e) (last_merit (h1 ++ a :: h2))).
  { apply (Rej _ e h3); auto. rewrite Eh, <- app_assoc. reflexivity. }
  rewrite Re in W. symmetry in W.
  replace (last_merit (h1 ++ a :: h2)) with (Some m) in W.
  - cbn in W. apply Rltb_false in W. lra.
  - unfold last_merit. rewrite fold_left_app. cbn. rewrite Ra. symmetry. exact Em.
Qed.

(** r-factors stay positive: from a positive start, positive rates *)
Theorem C43_r_positive sweep len S r0 x st : 0 < sp_nu_reduce S -> 0 < sp_nu_increase S -> (forall i, 0 < r0 i) ->
  (0 < len)%nat -> solve sweep len S r0 = Some (x, st) ->
  Forall (fun e => forall i, 0 < it_r e i) (st_hist st).
Proof.
  intros H1 H2 Hr Hlen E. destruct len as [|n]; [lia|]. unfold solve in E.
  assert (E' : solve_loop sweep n S (sp_max_iter S) 0 vzeros vzeros r0 None = (x, st)) by (destruct (sp_max_iter S); congruence).
  apply loop_spec in E'; [|lia]. destruct E' as [_ _ _ _ L5 L6].
  assert (G : forall h2 h1 e, st_hist st = h1 ++ e :: h2 -> (forall i, 0 < it_r e i) -> Forall (fun e => forall i, 0 < it_r e i) h2).
  { induction h2 as [|e' h2 IH]; intros h1 e Eh He; constructor.
    - rewrite (L6 h1 e e' h2 Eh). unfold next_r. intro i. destruct (it_reject e); [apply Rmult_lt_0_compat; auto|].
      destruct (slow _ _ _); [apply Rmult_lt_0_compat; auto|auto].
    - apply (IH (h1 ++ [e]) e'); [rewrite Eh, <- app_assoc; reflexivity|].
      rewrite (L6 h1 e e' h2 Eh). unfold next_r. intro i. destruct (it_reject e); [apply Rmult_lt_0_compat; auto|].
      destruct (slow _ _ _); [apply Rmult_lt_0_compat; auto|auto]. }
  destruct (st_hist st) as [|e h] eqn:Eh; constructor.
  - rewrite (L5 e h eq_refl). auto.
  - apply (G h [] e eq_refl). rewrite (L5 e h eq_refl). auto.
Qed.
(** the initial r-factors are positive when the Delassus diagonal is non-negative *)
Theorem C43_initial_r factor N J WJT i : 0 < factor -> 0 <= rsum N (fun j => J i j * WJT j i) ->
  0 < initial_r factor N J WJT i.
Proof.
  intros Hf Hd. unfold initial_r, delassus_diag. destruct (Reqb_spec (rsum N (fun j => J i j * WJT j i)) 0).
  - lra.
  - apply Rdiv_lt_0_compat; lra.
Qed.

(** the rigid-body solver: recorded residuals never increase; exit codes; the iterate of every
    problem equals its accepted solution on return *)
Theorem C43_rigid S ps :
  Forall (fun p => ps_x p = ps_sol p /\ ps_last p = None) ps ->
  let '(res, code, out) := rigid_solve S ps in
  (length res <= sp_max_iter S)%nat /\
  (forall l1 a b l2, res = l1 ++ a :: b :: l2 -> b <= a) /\
  ((code = 0%nat /\ length res = sp_max_iter S) \/
   (code = 1%nat /\ exists l a, res = l ++ [a] /\ a < sp_abs S) \/
   (code = 2%nat /\ exists l a b, res = l ++ [b; a] /\ Rabs (a - b) < sp_rel S * b)) /\
  Forall (fun p => ps_x p = ps_sol p) out /\ length out = length ps.
Proof.
  intro H. unfold rigid_solve.
  pose proof (rigid_loop_ok S (sp_max_iter S) None ps) as L.
  destruct (rigid_loop S (sp_max_iter S) None ps) as [[res code] out].
  destruct L as (L1 & _ & L3 & L4 & L5 & L6).
  - eapply Forall_impl; [|exact H]. intros p [A B]. split; auto. rewrite B. discriminate.
  - discriminate.
  - split; [exact L1|]. split; [exact L3|]. split; [|split].
    + destruct L4 as [L4|[L4|[-> (l & a & b & [E|[_ E]] & Hr)]]]; auto; [|discriminate].
      right; right. split; auto. exists l, a, b. auto.
    + eapply Forall_impl; [|exact L5]. intros p [A _]. exact A.
    + apply (f_equal (@length _)) in L6. rewrite !map_length in L6. exact L6.
Qed.
(** and the solution of a problem is zero or produced by a sweep from an accepted solution *)
Theorem C43_rigid_solution S P others res code out p :
  rigid_solve S (ps_init P :: others) = (res, code, p :: out) ->
  ps_sol p = vzeros \/ exists r s, ps_sol p = gs_sweep P r s.
Proof.
  intro E. unfold rigid_solve in E.
  assert (H : forall fuel gl q qs, ps_sweep q = gs_sweep P -> (ps_sol q = vzeros \/ exists r s, ps_sol q = gs_sweep P r s) ->
     exists q' qs', snd (rigid_loop S fuel gl (q :: qs)) = q' :: qs' /\ (ps_sol q' = vzeros \/ exists r s, ps_sol q' = gs_sweep P r s)).
  { induction fuel as [|fuel IH]; intros gl q qs Hs Hc; cbn [rigid_loop]; [exists q, qs; auto|].
    cbn [map]. set (q1 := fst (ps_step S q)). set (qs1 := map fst (map (ps_step S) qs)).
    assert (Hq : ps_sweep q1 = gs_sweep P /\ (ps_sol q1 = vzeros \/ exists r s, ps_sol q1 = gs_sweep P r s)).
    { unfold q1, ps_step. destruct (worse _ _); cbn; split; auto. rewrite Hs. right. eauto. }
    destruct Hq as [Q1 Q2]. destruct (Rltb _ _); [exists q1, qs1; auto|]. destruct (rel_conv _ _ _); [exists q1, qs1; auto|].
    match goal with |- context [rigid_loop S fuel ?g _] => specialize (IH g q1 qs1 Q1 Q2); destruct (rigid_loop S fuel g (q1 :: qs1)) as [[r0 c0] o0] end.
    exact IH. }
  destruct (H (sp_max_iter S) None (ps_init P) others eq_refl (or_introl eq_refl)) as (q' & qs' & E' & C).
  rewrite E in E'. cbn in E'. assert (p = q') by congruence. subst. exact C.
Qed.

(** ** C44 *)
Theorem C44_gauss_seidel_sweep P r x : gs_sweep P r x = gs_spec P r (seq 0 (pK P)) x.
Proof. unfold gs_sweep. rewrite gs_fold by apply seq_lt. reflexivity. Qed.
(** at every point of the sweep the maintained w is W J^T x *)
Theorem C44_w_invariant P r x m : (m <= pK P)%nat ->
  let '(x', w') := fold_left (gs_step P r) (seq 0 m) (x, WJTx P x) in
  forall j, w' j = rsum (pB P * pK P) (fun i => pWJT P j i * x' i).
Proof.
  intro H. rewrite gs_fold.
  - intro j. reflexivity.
  - apply Forall_forall. intros k Hk. apply in_seq in Hk. lia.
Qed.

(** ** C45 *)
Theorem C45_rigid_graph cps k i :
  In (k, i) (rigid_edges cps) <->
  (k < i < length cps)%nat /\
  exists body, (body = fst (nth k cps (0, 0)%nat) \/ body = snd (nth k cps (0, 0)%nat)) /\
               (body = fst (nth i cps (0, 0)%nat) \/ body = snd (nth i cps (0, 0)%nat)).
Proof.
  unfold rigid_edges. rewrite contact_edges_ok.
  enough (E : forall c1 c2, rigid_shares c1 c2 = true <-> exists body, (body = fst c1 \/ body = snd c1) /\ (body = fst c2 \/ body = snd c2)) by (rewrite E; reflexivity).
  intros [a b] [c d]. unfold rigid_shares; cbn. rewrite !orb_true_iff, !Nat.eqb_eq. split.
  - intros [[[H|H]|H]|H]; subst; eauto.
  - intros (y & [->| ->] & [H|H]); auto.
Qed.
Theorem C45_soft_graph cps k i :
  In (k, i) (soft_edges cps) <->
  (k < i < length cps)%nat /\
  exists node, (In node (fst (nth k cps ([], []))) \/ In node (snd (nth k cps ([], [])))) /\
               (In node (fst (nth i cps ([], []))) \/ In node (snd (nth i cps ([], [])))).
Proof.
  unfold soft_edges. rewrite contact_edges_ok.
  enough (E : forall c1 c2, soft_shares c1 c2 = true <-> exists y, (In y (fst c1) \/ In y (snd c1)) /\ (In y (fst c2) \/ In y (snd c2))) by (rewrite E; reflexivity).
  intros c1 c2. unfold soft_shares, soft_nodes. rewrite existsb_exists. split.
  - intros (y & H1 & H2). apply existsb_exists in H2 as (y' & H2 & E). apply Nat.eqb_eq in E. subst y'.
    exists y. rewrite in_app_iff in *. auto.
  - intros (y & H1 & H2). exists y. rewrite in_app_iff. split; auto. apply existsb_exists. exists y.
    rewrite in_app_iff, Nat.eqb_refl. auto.
Qed.

(** colour groups of a proper colouring of the rigid contact graph: the blocks (4k,4k+4),
    k < K, each exactly once; no group empty; no two contacts of one group share a body *)
Theorem C45_groups cps C :
  let K := length cps in
  (forall k i, In (k, i) (rigid_edges cps) -> C k <> C i) ->
  let groups := greedy_groups K C in
  Permutation (concat (map snd groups)) (map (fun k => (4 * k, 4 * k + 4)%nat) (seq 0 K)) /\
  NoDup (map fst groups) /\
  (forall c g, In (c, g) groups -> g <> [] /\ g = map (fun k => (4 * k, 4 * k + 4)%nat) (filter (fun k => Z.eqb (C k) c) (seq 0 K))) /\
  (forall c g k i, In (c, g) groups -> In (4 * k, 4 * k + 4)%nat g -> In (4 * i, 4 * i + 4)%nat g -> k <> i ->
     rigid_shares (nth k cps (0, 0)%nat) (nth i cps (0, 0)%nat) = false).
Proof.
  intros K HC groups. unfold groups. rewrite greedy_as_group_all.
  destruct (group_all_ok (fun b => C (Nat.div (fst b) 4)) (map block_of_contact (seq 0 K))) as (G1 & G2 & G3 & _).
  assert (G3' : forall c g, In (c, g) (group_all (fun b => C (Nat.div (fst b) 4)) (map block_of_contact (seq 0 K))) ->
     g <> [] /\ g = map block_of_contact (filter (fun k => Z.eqb (C k) c) (seq 0 K))).
  { intros c g H. destruct (G3 c g H) as [E N]. split; auto. rewrite E. clear.
    induction (seq 0 K) as [|k l IH]; cbn [map filter]; auto.
    replace (fst (block_of_contact k) / 4)%nat with k.
    2: { unfold block_of_contact; cbn [fst]. rewrite Nat.mul_comm. symmetry. apply Nat.div_mul. lia. }
    destruct (Z.eqb (C k) c); cbn [map]; rewrite IH; reflexivity. }
  split; [exact G2|]. split; [exact G1|]. split; [exact G3'|].
  intros c g k i Hg Hk Hi Hne. destruct (G3' c g Hg) as [_ E].
  assert (Mem : forall m, In (4 * m, 4 * m + 4)%nat g -> (m < K)%nat /\ C m = c).
  { intros m Hm. rewrite E in Hm. apply in_map_iff in Hm as (m' & Em & Hm').
    unfold block_of_contact in Em. apply pair_equal_spec in Em as [Em _]. assert (m' = m) by lia. subst m'.
    apply filter_In in Hm' as [Hm1 Hm2]. apply in_seq in Hm1. apply Z.eqb_eq in Hm2. split; [lia|auto]. }
  destruct (Mem k Hk) as [Lk Ck]. destruct (Mem i Hi) as [Li Ci].
  destruct (rigid_shares _ _) eqn:Sh; auto. exfalso.
  destruct (Nat.lt_total k i) as [L|[L|L]]; [|auto|].
  - apply (HC k i); [|congruence]. apply contact_edges_ok. split; [lia|auto].
  - apply (HC i k); [|congruence]. apply contact_edges_ok. split; [lia|].
    revert Sh. unfold rigid_shares. rewrite !orb_true_iff, !Nat.eqb_eq. intuition.
Qed.

(** the Jacobian rows and the W J^T columns of contact k only touch the degrees of freedom of
    its two bodies ([body_of] maps a degree of freedom to its body) *)
Definition supported (P : problem) (cps : list (nat * nat)) (body_of : nat -> nat) : Prop :=
  forall k i j, (k < length cps)%nat -> (i < pB P)%nat ->
    let on := (body_of j = fst (nth k cps (0, 0)%nat) \/ body_of j = snd (nth k cps (0, 0)%nat)) in
    (pJ P (pB P * k + i)%nat j <> 0 -> on) /\ (pWJT P j (pB P * k + i)%nat <> 0 -> on).
Lemma supported_uncoupled P cps body_of k l : supported P cps body_of -> (k < length cps)%nat -> (l < length cps)%nat ->
  rigid_shares (nth k cps (0, 0)%nat) (nth l cps (0, 0)%nat) = false -> uncoupled P k l.
Proof.
  intros HS Hk Hl Hs i i' Hi Hi'. apply rsum_zero. intros j _.
  destruct (Req_dec (pJ P (pB P * k + i)%nat j) 0) as [->|N1]; [ring|].
  destruct (Req_dec (pWJT P j (pB P * l + i')%nat) 0) as [->|N2]; [ring|]. exfalso.
  apply (HS k i j Hk Hi) in N1. apply (HS l i' j Hl Hi') in N2.
  assert (T : rigid_shares (nth k cps (0, 0)%nat) (nth l cps (0, 0)%nat) = true).
  { unfold rigid_shares. rewrite !orb_true_iff, !Nat.eqb_eq.
    destruct N1 as [E1|E1], N2 as [E2|E2]; rewrite <- E1, <- E2; auto. }
  congruence.
Qed.

(** blocks of one group, processed sequentially in any order, give one result: that of updating
    them all at once from the same w *)
Theorem C45_any_order P cps body_of r x ks ks' :
  (0 < pB P)%nat -> local_prox (pB P) (pprox P) -> length cps = pK P -> supported P cps body_of ->
  NoDup ks -> Forall (fun k => (k < pK P)%nat) ks ->
  (forall k l, In k ks -> In l ks -> k <> l -> rigid_shares (nth k cps (0, 0)%nat) (nth l cps (0, 0)%nat) = false) ->
  Permutation ks ks' ->
  gs_spec P r ks' x = gs_spec P r ks x /\
  (forall k i, In k ks -> (i < pB P)%nat ->
     gs_spec P r ks x (pB P * k + i)%nat =
     pprox P k (fun i => let j := (pB P * k + i)%nat in x j - r j * (delassus P x j + pb P j)) i).
Proof.
  intros HB Hl HK HS Hn Hlt Hs Hp.
  assert (Hu : forall k l, In k ks -> In l ks -> k <> l -> uncoupled P k l).
  { intros k l H1 H2 H3. rewrite Forall_forall in Hlt. rewrite <- HK in Hlt.
    eapply supported_uncoupled; eauto. }
  assert (E : fold_left (pstep P r (WJTx P x)) ks x = gs_spec P r ks x) by (apply gs_group; auto).
  assert (E' : fold_left (pstep P r (WJTx P x)) ks' x = gs_spec P r ks' x).
  { assert (Iff : forall k, In k ks' -> In k ks) by (intro k; apply Permutation_in, Permutation_sym, Hp).
    apply gs_group; auto.
    - rewrite Forall_forall in *. auto.
    - eapply Permutation_NoDup; eauto. }
  split.
  - rewrite <- E, <- E'. symmetry. apply pfold_perm; auto.
  - intros k i Hk Hi. rewrite <- E. rewrite pfold_in; auto.
Qed.

(** ** C46 *)
Theorem C46_random_coloring K adj choose order max_iter :
  (forall u v, adj u v = adj v u) -> (forall v, adj v v = false) ->
  (forall it v l, l <> [] -> In (choose it v l) l) ->
  (forall it l, Permutation (order it l) l) ->
  let groups := random_graph_coloring K adj choose order max_iter in
  (* every vertex is coloured exactly once *)
  Permutation (concat (map snd groups)) (seq 0 K) /\
  NoDup (map fst groups) /\
  (* adjacent vertices are in different groups *)
  (forall c g u v, In (c, g) groups -> In u g -> In v g -> adj u v = false).
Proof.
  intros H1 H2 H3 H4 groups.
  destruct (random_ok K adj choose order H1 H2 H3 H4 max_iter) as [R1 R2].
  set (C := random_coloring K adj choose order max_iter) in *.
  set (col := fun v => match C v with Some c => c | None => 0%Z end).
  assert (E : groups = group_all col (seq 0 K)).
  { unfold groups, random_graph_coloring, group_all. fold C.
    assert (L : forall v, In v (seq 0 K) -> C v <> None) by (intros v Hv; apply R1; apply in_seq in Hv; lia).
    revert L. generalize (@nil (Z * list nat)) as acc. induction (seq 0 K) as [|v l IH]; intros acc L; cbn [fold_left]; auto.
    rewrite <- IH by (intros; apply L; right; auto). unfold col.
    destruct (C v) eqn:Ev; auto. exfalso. apply (L v); [left; auto|auto]. }
  rewrite E. destruct (group_all_ok col (seq 0 K)) as (G1 & G2 & G3 & _).
  split; [auto|]. split; [auto|]. intros c g u v Hg Hu Hv.
  destruct (G3 c g Hg) as [Eg _]. rewrite Eg in Hu, Hv.
  apply filter_In in Hu as [U1 U2]. apply filter_In in Hv as [V1 V2]. apply in_seq in U1. apply in_seq in V1.
  destruct (adj u v) eqn:A; auto. exfalso. apply (R2 u v); auto; try lia.
  apply Z.eqb_eq in U2. apply Z.eqb_eq in V2. unfold col in U2, V2.
  destruct (C u) eqn:Eu; [|exfalso; apply (R1 u); auto; lia]. destruct (C v) eqn:Ev; [|exfalso; apply (R1 v); auto; lia].
  congruence.
Qed.
(** the hypotheses are met by a triangle with an isolated vertex, choosing the first colour *)
Example C46_nonvacuous :
  let adj := fun u v => Nat.ltb u 3 && Nat.ltb v 3 && negb (Nat.eqb u v) in
  random_graph_coloring 4 adj (fun _ _ l => hd 0%Z l) (fun _ l => l) 5 <> [] /\
  adj 0%nat 1%nat = true.
Proof. split; [vm_compute; discriminate|reflexivity]. Qed.

(** ** C47 *)
(** When a group's first index exceeds the indices of all earlier blocks it is coupled to, the
    parallel sweep is the sequential one in group order.  (Full claim: for all groups; it is
    false, see below.) *)
Theorem C47_sequential_partial P order groups r x :
  (0 < pB P)%nat -> local_prox (pB P) (pprox P) -> (forall g, Permutation (order g) g) ->
  Forall (fun g => g <> []) groups -> Forall (fun k => (k < pK P)%nat) (concat groups) -> NoDup (concat groups) ->
  groups_ok P [] groups ->
  pgs_sweep P order groups r x = gs_spec P r (concat groups) x.
Proof.
  intros HB Hl Ho Hne Hlt Hnd Hok. unfold pgs_sweep.
  apply (pgs_groups P order r (WJTx P x) HB Hl Ho groups [] (x, fun _ => vzeros)); auto.
  - rewrite app_nil_r. auto.
  - split; [|split]; cbn [fst snd].
    + intro j. rewrite rsum_zero by reflexivity. lra.
    + reflexivity.
    + intro i. exists x, x. extensionality j. unfold delta_w, vzeros. symmetry. apply rsum_zero. intros; ring.
Qed.
(** instance: all contacts mutually adjacent, colours in index order *)
Theorem C47_complete_graph P order r x : (0 < pB P)%nat -> local_prox (pB P) (pprox P) -> (forall g, Permutation (order g) g) ->
  pgs_sweep P order (map (fun k => [k]) (seq 0 (pK P))) r x = gs_sweep P r x.
Proof.
  intros HB Hl Ho. rewrite C44_gauss_seidel_sweep.
  assert (Cc : forall l : list nat, concat (map (fun k => [k]) l) = l) by (induction l; cbn; congruence).
  rewrite C47_sequential_partial; auto.
  - rewrite Cc. reflexivity.
  - apply Forall_map. apply Forall_forall. intros k _. discriminate.
  - rewrite Cc. apply seq_lt.
  - rewrite Cc. apply seq_NoDup.
  - assert (G : forall n s done, (forall l, In l done -> (l < s)%nat) -> groups_ok P done (map (fun k => [k]) (seq s n))).
    { induction n as [|n IH]; intros s done H; cbn; auto. split; [|split].
      - intros l k Hd [->|[]] Hle. specialize (H l Hd). lia.
      - intros k l [->|[]] [->|[]] Hne. congruence.
      - apply IH. intros l [->|Hin]; [lia|]. specialize (H l Hin). lia. }
    apply G. intros l [].
Qed.

(** Counterexample: four bodies with one degree of freedom each, contacts (0,1) (1,2) (2,3);
    greedy colouring gives the middle contact (largest degree) colour 0 and the outer ones
    colour 1, hence the groups {0,2}, {1}. *)
Section ChainCounterexample.
Definition dJ : mat := fun i j => match i, j with
  | 0%nat, 0%nat => -1 | 0%nat, 1%nat => 1 | 4%nat, 1%nat => -1 | 4%nat, 2%nat => 1 | 8%nat, 2%nat => -1 | 8%nat, 3%nat => 1
  | _, _ => 0 end.
Definition dP : problem := contact_problem 3 4 dJ (fun j i => dJ i j) (fun i => match i with 0%nat => -1 | 4%nat => -1 | 8%nat => -1 | _ => 0 end)
  (fun _ => 0) prox_origin.
Definition dcps : list (nat * nat) := [(0, 1); (1, 2); (2, 3)]%nat.
Definition dC (k : nat) : Z := match k with 1%nat => 0%Z | _ => 1%Z end.
Definition ones : vec := fun _ => 1.
Lemma d_groups : group_contacts (greedy_groups 3 dC) = [[0; 2]; [1]]%nat.
Proof. reflexivity. Qed.
Lemma d_supported : supported dP dcps (fun j => j).
Proof.
  intros k i j Hk Hi. cbn in Hk, Hi. cbn [pB pJ pWJT dP contact_problem].
  assert (D : dJ (4 * k + i)%nat j <> 0 -> j = fst (nth k dcps (0, 0)%nat) \/ j = snd (nth k dcps (0, 0)%nat)).
  { destruct k as [|[|[|k]]]; [| | |lia]; destruct i as [|[|[|[|i]]]]; try lia; destruct j as [|[|[|[|j]]]]; cbn; intro H; auto; congruence. }
  split; exact D.
Qed.
Definition e012 (a b c : R) : vec := fun i => match i with 0%nat => a | 4%nat => b | 8%nat => c | _ => 0 end.
Definition w4 (a b c d : R) : vec := fun j => match j with 0%nat => a | 1%nat => b | 2%nat => c | 3%nat => d | _ => 0 end.
Lemma d_block (x w : vec) k v : (k < 3)%nat ->
  Rmax 0 (x (4*k)%nat - 1 * (mdotv 4 dJ w (4*k)%nat + -1)) = v ->
  pstep dP ones w x k = (fun j => if in_block 4 k j then match (j - 4*k)%nat with 0%nat => v | _ => 0 end else x j).
Proof.
  intros Hk Hv. unfold pstep, set_block. cbn [pB dP contact_problem]. extensionality j.
  destruct (in_block 4 k j) eqn:I; auto. cbn [pprox]. unfold contact_prox, z_block. cbn [pN pJ pb prox_origin].
  assert (B : forall t, (match (4 * k)%nat with 0%nat => -1 | 4%nat => -1 | 8%nat => -1 | _ => t end) = -1).
  { intro t. destruct k as [|[|[|k]]]; [reflexivity|reflexivity|reflexivity|lia]. }
  destruct (j - 4 * k)%nat as [|[|[|m]]]; try reflexivity.
  rewrite <- Hv. f_equal. unfold ones. destruct k as [|[|[|k]]]; [reflexivity|reflexivity|reflexivity|lia].
Qed.
Lemma d_block' a b c w k v : (k < 3)%nat ->
  Rmax 0 (e012 a b c (4*k)%nat - 1 * (mdotv 4 dJ w (4*k)%nat + -1)) = v ->
  pstep dP ones w (e012 a b c) k =
    match k with 0%nat => e012 v b c | 1%nat => e012 a v c | _ => e012 a b v end.
Proof.
  intros Hk Hv. rewrite (d_block _ _ _ v Hk Hv). extensionality j.
  destruct k as [|[|[|k]]]; [| | |lia];
    do 13 (destruct j as [|j]; [reflexivity|]);
    unfold in_block; cbn; destruct j; reflexivity.
Qed.
Lemma d_WJT a b c : WJTx dP (e012 a b c) = w4 (-a) (a - b) (b - c) c.
Proof.
  extensionality j. unfold WJTx, mdotv. cbn [pB pK dP contact_problem Nat.mul Nat.add pWJT].
  destruct j as [|[|[|[|j]]]]; cbn; lra.
Qed.
Lemma d_J0 a b c d : mdotv 4 dJ (w4 a b c d) 0%nat = b - a. Proof. unfold mdotv; cbn; lra. Qed.
Lemma d_J4 a b c d : mdotv 4 dJ (w4 a b c d) 4%nat = c - b. Proof. unfold mdotv; cbn; lra. Qed.
Lemma d_J8 a b c d : mdotv 4 dJ (w4 a b c d) 8%nat = d - c. Proof. unfold mdotv; cbn; lra. Qed.

Lemma d_seq : gs_spec dP ones [0; 2; 1]%nat vzeros 4%nat = 3.
Proof.
  unfold gs_spec. cbn [fold_left].
  assert (G : forall x k, gs_block dP ones x k = pstep dP ones (WJTx dP x) x k) by reflexivity.
  rewrite !G. replace vzeros with (e012 0 0 0) by (extensionality j; do 9 (destruct j as [|j]; [reflexivity|]); reflexivity).
  rewrite (d_block' 0 0 0 _ 0%nat 1); [|lia|].
  2: { rewrite d_WJT. change (4*0)%nat with 0%nat. rewrite d_J0. cbn [e012]. rewrite Rmax_right; lra. }
  rewrite (d_block' 1 0 0 _ 2%nat 1); [|lia|].
  2: { rewrite d_WJT. change (4*2)%nat with 8%nat. rewrite d_J8. cbn [e012]. rewrite Rmax_right; lra. }
  rewrite (d_block' 1 0 1 _ 1%nat 3); [reflexivity|lia|].
  rewrite d_WJT. change (4*1)%nat with 4%nat. rewrite d_J4. cbn [e012]. rewrite Rmax_right; lra.
Qed.
Lemma d_par : pgs_sweep dP (fun g => g) [[0; 2]; [1]]%nat ones vzeros 4%nat = 2.
Proof.
  unfold pgs_sweep. replace vzeros with (e012 0 0 0) by (extensionality j; do 9 (destruct j as [|j]; [reflexivity|]); reflexivity).
  rewrite d_WJT. set (w0 := w4 _ _ _ _). cbn [fold_left]. unfold pgs_group at 2.
  set (w1 := fun j => w0 j + rsum 0 _).
  assert (W1 : w1 = w4 0 0 0 0).
  { unfold w1, w0. extensionality j. destruct j as [|[|[|[|j]]]]; cbn; lra. }
  rewrite W1. cbn [fold_left]. unfold pgs_step at 2.
  change (set_block (pB dP) 0 (e012 0 0 0) (pprox dP 0 (z_block (pB dP) (pN dP) (pJ dP) (pb dP) ones (e012 0 0 0) (w4 0 0 0 0) 0)))
    with (pstep dP ones (w4 0 0 0 0) (e012 0 0 0) 0%nat).
  rewrite (d_block' 0 0 0 _ 0%nat 1); [|lia|].
  2: { change (4*0)%nat with 0%nat. rewrite d_J0. cbn [e012]. rewrite Rmax_right; lra. }
  unfold pgs_step at 1.
  match goal with |- context [set_block (pB dP) 2 ?x ?v] => change (set_block (pB dP) 2 x v) with (pstep dP ones (w4 0 0 0 0) x 2%nat) end.
  rewrite (d_block' 1 0 0 _ 2%nat 1); [|lia|].
  2: { change (4*2)%nat with 8%nat. rewrite d_J8. cbn [e012]. rewrite Rmax_right; lra. }
  unfold pgs_group. cbn [snd fold_left]. set (w2 := fun j => w0 j + rsum 1 _).
  assert (W2 : w2 = w4 (-1) 1 0 0).
  { unfold w2, w0. extensionality j. cbn. unfold delta_w. destruct j as [|[|[|[|j]]]]; cbn; lra. }
  rewrite W2. unfold pgs_step.
  match goal with |- context [set_block (pB dP) 1 ?x ?v] => change (set_block (pB dP) 1 x v) with (pstep dP ones (w4 (-1) 1 0 0) x 1%nat) end.
  rewrite (d_block' 1 0 1 _ 1%nat 2); [reflexivity|lia|].
  change (4*1)%nat with 4%nat. rewrite d_J4. cbn [e012]. rewrite Rmax_right; lra.
Qed.

Theorem C47_refuted :
  exists P cps body_of C r x,
    length cps = pK P /\ supported P cps body_of /\
    (forall k i, In (k, i) (rigid_edges cps) -> C k <> C i) /\
    let groups := group_contacts (greedy_groups (pK P) C) in
    pgs_sweep P (fun g => g) groups r x <> gs_spec P r (concat groups) x.
Proof.
  exists dP, dcps, (fun j => j), dC, ones, vzeros. split; [reflexivity|]. split; [apply d_supported|]. split.
  - intros k i H. apply C45_rigid_graph in H as [[H1 H2] (b & Hb & Hb')]. cbn in H2.
    destruct i as [|[|[|i]]]; try lia; destruct k as [|[|k]]; try lia; try discriminate;
      cbn in Hb, Hb'; exfalso; lia.
  - change (pK dP) with 3%nat. rewrite d_groups. cbn [concat app]. intro E.
    apply (f_equal (fun f => f 4%nat)) in E. rewrite d_seq, d_par in E. lra.
Qed.
End ChainCounterexample.

(** hypotheses of the parallel/any-order theorems hold for the chain's group {0,2} *)
Example C45_nonvacuous :
  supported dP dcps (fun j => j) /\ local_prox (pB dP) (pprox dP) /\
  rigid_shares (nth 0 dcps (0, 0)%nat) (nth 2 dcps (0, 0)%nat) = false /\ rigid_edges dcps = [(0, 1); (1, 2)]%nat.
Proof. split; [apply d_supported|]. split; [apply local_contact|]. split; reflexivity. Qed.
(** the solvers return for every problem with at least one contact, and raise with none *)
Theorem C43_returns s K N J WJT b mu fs order groups S : (0 < K)%nat ->
  exists x st, prox_solve s K N J WJT b mu fs order groups S = Some (x, st).
Proof.
  intro H. unfold prox_solve, solve. destruct K as [|K]; [lia|]. cbn [Nat.mul Nat.add].
  match goal with |- context [Some ?t] => destruct t as [x st] eqn:E end. eauto.
Qed.
Theorem C43_no_contacts_raises s N J WJT b mu fs order groups S : (0 < sp_max_iter S)%nat ->
  prox_solve s 0 N J WJT b mu fs order groups S = None.
Proof. intro H. unfold prox_solve, solve. cbn. destruct (sp_max_iter S); [lia|reflexivity]. Qed.
Print Assumptions C42_gauss_seidel.
Print Assumptions C42_parallel_gauss_seidel.
Print Assumptions C42_hybrid_jacobi.
Print Assumptions C42_rigid.
Print Assumptions C42_jacobi_refuted.
Print Assumptions C42_jacobi_normal_partial.
Print Assumptions C43_control.
Print Assumptions C43_r_positive.
Print Assumptions C43_initial_r.
Print Assumptions C43_rigid.
Print Assumptions C43_rigid_solution.
Print Assumptions C44_gauss_seidel_sweep.
Print Assumptions C44_w_invariant.
Print Assumptions C45_rigid_graph.
Print Assumptions C45_soft_graph.
Print Assumptions C45_groups.
Print Assumptions C45_any_order.
Print Assumptions C46_random_coloring.
Print Assumptions C47_sequential_partial.
Print Assumptions C47_complete_graph.
Print Assumptions C47_refuted.
Print Assumptions C43_returns.
Print Assumptions C43_no_contacts_raises.
