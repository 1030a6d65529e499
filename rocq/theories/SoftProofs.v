(** Proofs about SoftModel: the node layout, global vectors, boundary conditions, and the anatomy of a time step. *)
From Verif Require Import Base VecModel VecProofs SolverModel SolverProofs RigidTypes StepModel ConProofs MechModel FemModel FemSpec FemProofs FemProofs2 SoftModel SoftSpec.
Open Scope R_scope.

(** ** the layout *)
Lemma layout_le bs : forall s N, layout bs s N -> (s <= N)%nat.
Proof.
  induction bs as [|b bs IH]; intros s N H; cbn [layout] in H; [lia|]. destruct (ready b); [destruct H as [_ H]|]; apply IH in H; lia.
Qed.
Lemma layout_range bs : forall s N, layout bs s N -> forallb ready bs = true -> forall b, In b bs -> (s <= s_offset b /\ s_offset b + s_n b <= N)%nat.
Proof.
  induction bs as [|a bs IH]; intros s N H HR b Hb; [destruct Hb|]. cbn [layout] in H. cbn [forallb] in HR. apply andb_prop in HR as [R1 R2]. rewrite R1 in H. destruct H as [H1 H2].
  pose proof (layout_le _ _ _ H2). destruct Hb as [<-|Hb]; [lia|]. destruct (IH _ _ H2 R2 b Hb). lia.
Qed.
Lemma layout_locate bs : forall s N, layout bs s N -> forallb ready bs = true -> forall n, (s <= n < N)%nat -> exists b i, In b bs /\ (i < s_n b)%nat /\ n = (s_offset b + i)%nat.
Proof.
  induction bs as [|a bs IH]; intros s N H HR n Hn; cbn [layout] in H; [lia|]. cbn [forallb] in HR. apply andb_prop in HR as [R1 R2]. rewrite R1 in H. destruct H as [H1 H2].
  destruct (Nat.lt_ge_cases n (s + s_n a)) as [L|L].
  - exists a, (n - s)%nat. split; [left; reflexivity|]. lia.
  - destruct (IH _ _ H2 R2 n ltac:(lia)) as (b & i & Hb & Hi & E). exists b, i. split; [right; exact Hb|]. split; assumption.
Qed.
Lemma put_in x o n v i : (i < n)%nat -> put x o n v (o + i)%nat = v i.
Proof. intros H. unfold put. rewrite (proj2 (Nat.leb_le _ _)) by lia. rewrite (proj2 (Nat.ltb_lt _ _)) by lia. cbn. f_equal. lia. Qed.
Lemma put_out x o n v k : (k < o \/ o + n <= k)%nat -> put x o n v k = x k.
Proof. intros H. unfold put. destruct (Nat.leb_spec o k); [|reflexivity]. destruct (Nat.ltb_spec k (o + n)); [lia|reflexivity]. Qed.
Lemma collect_spec bs : forall s N f acc r, layout bs s N -> forallb ready bs = true -> collect bs f acc = Some r ->
  (forall k, (k < s)%nat -> r k = acc k) /\ (forall b, In b bs -> exists v, f b = Some v /\ forall i, (i < s_n b)%nat -> r (s_offset b + i)%nat = v i).
Proof.
  induction bs as [|a bs IH]; intros s N f acc r HL HR HC; cbn [collect] in HC.
  - injection HC as <-. split; [reflexivity|intros b []].
  - cbn [layout] in HL. cbn [forallb] in HR. apply andb_prop in HR as [R1 R2]. rewrite R1 in HL. destruct HL as [L1 L2].
    destruct (f a) as [v|] eqn:Ef; [|discriminate]. destruct (IH _ _ _ _ _ L2 R2 HC) as [P1 P2]. split.
    + intros k Hk. rewrite P1 by lia. apply put_out. lia.
    + intros b [<-|Hb]; [|apply P2; exact Hb]. exists v. split; [exact Ef|]. intros i Hi. rewrite P1 by lia. apply put_in. exact Hi.
Qed.
Lemma collect_total bs f : (forall b, In b bs -> f b <> None) -> forall acc, exists r, collect bs f acc = Some r.
Proof.
  induction bs as [|b bs IH]; intros H acc; cbn [collect]; [eauto|]. destruct (f b) as [v|] eqn:E; [|exfalso; apply (H b); [left; reflexivity|exact E]]. apply IH. intros c Hc. apply H. right. exact Hc.
Qed.
Lemma collect_all_some bs f : forall acc r, collect bs f acc = Some r -> forall b, In b bs -> f b <> None.
Proof.
  induction bs as [|a bs IH]; intros acc r H b Hb; [destruct Hb|]. cbn [collect] in H. destruct (f a) as [v|] eqn:E; [|discriminate]. destruct Hb as [<-|Hb]; [congruence|]. eapply IH; eassumption.
Qed.
Lemma gather_collect bs f : forall acc, collect bs (fun b => Some (f b)) acc = Some (fold_left (fun x b => put x (s_offset b) (s_n b) (f b)) bs acc).
Proof. induction bs as [|b bs IH]; intros acc; cbn [collect fold_left]; [reflexivity|]. apply IH. Qed.
Lemma gather_at bs s N f b i : layout bs s N -> forallb ready bs = true -> In b bs -> (i < s_n b)%nat -> gather bs f (s_offset b + i)%nat = f b i.
Proof.
  intros HL HR Hb Hi. destruct (collect_spec bs s N (fun b => Some (f b)) fzero _ HL HR (gather_collect bs f fzero)) as [_ H]. destruct (H b Hb) as (v & Ev & Hv). injection Ev as <-. apply Hv. exact Hi.
Qed.

(** ** boundary conditions *)
Definition is_dir (b : sbody) (i : nat) : bool := existsb (fun d => Nat.eqb (d_idx d) i) (s_dirichlet b).
Lemma fset_fold (val : dirichlet -> vec3) (v : nat -> vec3) o ds : forall x n, Forall (fun d => val d = v (d_idx d)) ds ->
  fold_left (fun x d => fset x (d_idx d + o) (val d)) ds x n = if Nat.leb o n && existsb (fun d => Nat.eqb (d_idx d) (n - o)) ds then v (n - o)%nat else x n.
Proof.
  induction ds as [|d ds IH] using rev_ind; intros x n HF; [cbn; destruct (Nat.leb o n); reflexivity|].
  apply Forall_app in HF as [F1 F2]. inversion F2 as [|? ? Fd _]; subst. rewrite fold_left_app. cbn [fold_left]. unfold fset at 1. rewrite (IH x n F1), existsb_app. cbn [existsb]. rewrite orb_false_r.
  destruct (Nat.eqb_spec n (d_idx d + o)) as [->|Hne].
  - rewrite Fd. rewrite (proj2 (Nat.leb_le _ _)) by lia. replace (d_idx d + o - o)%nat with (d_idx d) by lia. rewrite Nat.eqb_refl, orb_true_r. reflexivity.
  - destruct (Nat.leb_spec o n) as [L|L]; [|reflexivity]. cbn [andb]. destruct (Nat.eqb_spec (d_idx d) (n - o)); [lia|]. rewrite orb_false_r. reflexivity.
Qed.
Lemma bc_fold (val : sbody -> dirichlet -> vec3) (v : sbody -> nat -> vec3) bs : forall s N x, layout bs s N -> forallb ready bs = true ->
  Forall (fun b => Forall (fun d => (d_idx d < s_n b)%nat /\ val b d = v b (d_idx d)) (s_dirichlet b)) bs ->
  let r := fold_left (fun x b => fold_left (fun x d => fset x (d_idx d + s_offset b) (val b d)) (s_dirichlet b) x) bs x in
  (forall k, (k < s)%nat -> r k = x k) /\ (forall b i, In b bs -> (i < s_n b)%nat -> r (s_offset b + i)%nat = if is_dir b i then v b i else x (s_offset b + i)%nat).
Proof.
  induction bs as [|a bs IH]; intros s N x HL HR HF; cbn [fold_left]; cbv zeta. { split; [reflexivity|intros b i []]. }
  cbn [layout] in HL. cbn [forallb] in HR. apply andb_prop in HR as [R1 R2]. rewrite R1 in HL. destruct HL as [L1 L2]. inversion HF as [|? ? Fa Fbs]; subst.
  set (x1 := fold_left (fun x d => fset x (d_idx d + s_offset a) (val a d)) (s_dirichlet a) x).
  assert (X1 : forall n, x1 n = if Nat.leb (s_offset a) n && existsb (fun d => Nat.eqb (d_idx d) (n - s_offset a)) (s_dirichlet a) then v a (n - s_offset a)%nat else x n).
  { intros n. apply (fset_fold (val a) (v a)). eapply Forall_impl; [|exact Fa]. intros d [_ H]. exact H. }
  assert (X2 : forall n, (n < s_offset a \/ s_offset a + s_n a <= n)%nat -> x1 n = x n).
  { intros n Hn. rewrite X1. destruct (Nat.leb_spec (s_offset a) n) as [L|L]; [|reflexivity]. cbn [andb]. destruct (existsb _ _) eqn:Ex; [|reflexivity]. exfalso.
    apply existsb_exists in Ex as (d & Hd & Ed). rewrite Forall_forall in Fa. destruct (Fa d Hd) as [Hlt _]. apply Nat.eqb_eq in Ed. lia. }
  destruct (IH _ _ x1 L2 R2 Fbs) as [P1 P2]. cbv zeta in P1, P2. split.
  - intros k Hk. rewrite P1 by lia. apply X2. lia.
  - intros b i [<-|Hb] Hi.
    + rewrite P1 by lia. rewrite X1. rewrite (proj2 (Nat.leb_le _ _)) by lia. replace (s_offset a + i - s_offset a)%nat with i by lia. reflexivity.
    + rewrite P2 by assumption. destruct (is_dir b i); [reflexivity|]. apply X2. destruct (layout_range _ _ _ L2 R2 b Hb). lia.
Qed.
Lemma body_ok_dir bs : Forall body_ok bs -> Forall (fun b => Forall (fun d => (d_idx d < s_n b)%nat /\ d_value d = s_x0 b (d_idx d)) (s_dirichlet b)) bs.
Proof. intros H. eapply Forall_impl; [|exact H]. intros b Hb. apply bo_dir. exact Hb. Qed.
Lemma bc_positions_at bs N x b i : layout bs 0 N -> forallb ready bs = true -> Forall body_ok bs -> In b bs -> (i < s_n b)%nat ->
  bc_positions bs x (s_offset b + i)%nat = if is_dir b i then s_x0 b i else x (s_offset b + i)%nat.
Proof. intros HL HR HO Hb Hi. apply (bc_fold (fun _ d => d_value d) s_x0 bs 0 N x HL HR (body_ok_dir bs HO)); assumption. Qed.
Lemma bc_velocities_at bs N u b i : layout bs 0 N -> forallb ready bs = true -> Forall body_ok bs -> In b bs -> (i < s_n b)%nat ->
  bc_velocities bs u (s_offset b + i)%nat = if is_dir b i then vzero else u (s_offset b + i)%nat.
Proof.
  intros HL HR HO Hb Hi. apply (bc_fold (fun _ _ => vzero) (fun _ _ => vzero) bs 0 N u HL HR); [|assumption|assumption].
  eapply Forall_impl; [|apply (body_ok_dir bs HO)]. intros c Hc. eapply Forall_impl; [|exact Hc]. intros d [H _]. split; [exact H|reflexivity].
Qed.

(** ** anatomy of a step *)
(** the velocity correction of the contacts: none, or W J^T sol *)
Definition contact_change (sv : ssolver) (e : sengine) (W : mat) (u_prime : vec) (cs : list scontact) (q : field) : Prop :=
  (cs = [] /\ q = fzero) \/
  (cs <> [] /\ exists J mu sol, soft_jacobian (sg_with_contacts e cs) = Some J /\ sq_pre (sg_params e) = false /\ soft_friction (sg_with_contacts e cs) = Some mu /\
     sv (length cs) (3 * sg_N e)%nat J (mat_WJT (3 * sg_N e) W J) (mdotv (3 * sg_N e) J u_prime) mu ProxModel.prox_sphere = Some sol /\
     q = unflat (mdotv (4 * length cs) (mat_WJT (3 * sg_N e) W J) sol)).
Lemma post_some sv J WJT e e' : soft_post_stabilization sv J WJT e = Some e' -> e' = e.
Proof.
  unfold soft_post_stabilization. destruct (forallb _ _); [congruence|]. destruct (contact_solve _ _ _ _ _ _ _ _ _); discriminate.
Qed.
Lemma step_inv cd sv dt e e' : soft_step cd sv dt e = SDone e' ->
  exists W Fe Ft Fd Fext cs q, let n := (3 * sg_N e)%nat in let bs := sg_bodies e in
    let x := bc_positions bs (get_position_vector e) in let u := bc_velocities bs (get_velocity_vector e) in
    let F := fplus (fplus (fplus Fext Fe) Ft) Fd in
    let u_prime : vec := fun i => flat u i + dt * mdotv n W (flat F) i in
    sg_stepper e = Some (n, W) /\ forallb ready bs = true /\ elastic_forces x e = Some Fe /\ traction_forces x e = Some Ft /\ damping_forces u e = Some Fd /\ external_forces e = Some Fext /\
    cd e = Some cs /\ contact_change sv e W u_prime cs q /\
    e' = sg_tick (integrate (sg_with_contacts e cs) dt x (unflat u_prime) q).
Proof.
  unfold soft_step. destruct (sg_stepper e) as [[dimW W]|]; [|discriminate]. destruct (forallb ready (sg_bodies e)) eqn:ER; cbn [negb]; [|discriminate].
  destruct (elastic_forces _ e) as [Fe|] eqn:E1; [|discriminate]. destruct (traction_forces _ e) as [Ft|] eqn:E2; [|discriminate].
  destruct (damping_forces _ e) as [Fd|] eqn:E3; [|discriminate]. destruct (external_forces e) as [Fext|] eqn:E4; [|discriminate].
  destruct (Nat.eqb_spec dimW (3 * sg_N e)) as [->|]; cbn [negb]; [|discriminate]. destruct (cd e) as [cs|] eqn:E5; [|discriminate].
  intros H. exists W, Fe, Ft, Fd, Fext, cs. destruct cs as [|c cs].
  - exists fzero. cbv zeta. repeat (split; [assumption || reflexivity|]). split; [left; split; reflexivity|]. congruence.
  - destruct (soft_jacobian _) as [J|] eqn:E6; [|discriminate]. destruct (sq_pre (sg_params e)) eqn:E7; [discriminate|]. destruct (soft_friction _) as [mu|] eqn:E8; [|discriminate].
    unfold contact_solve in H. rewrite Nat.eqb_refl in H. destruct (sv _ _ _ _ _ _ _) as [sol|] eqn:E9; [|discriminate].
    exists (unflat (mdotv (4 * length (c :: cs)) (mat_WJT (3 * sg_N e) W J) sol)). cbv zeta. repeat (split; [assumption || reflexivity|]).
    split; [right; split; [discriminate|]; exists J, mu, sol; auto|].
    destruct (sq_post (sg_params e)); [|congruence]. destruct (soft_post_stabilization _ _ _ _) as [e3|] eqn:E10; [|discriminate]. apply post_some in E10. congruence.
Qed.
(** what the step leaves in a body *)
Definition moved (b : sbody) (x u : field) : sbody := sb_with_x (sb_with_u b (view u b)) (view x b).
Lemma integrate_bodies e dt x up q : sg_bodies (integrate e dt x up q) =
  let bs := sg_bodies e in let u2 := bc_velocities bs (fplus (bc_velocities bs up) q) in map (fun b => moved b (bc_positions bs (fplus x (fscale dt u2))) u2) bs.
Proof. unfold integrate, set_position_vector, set_velocity_vector, sg_with_bodies. cbn [sg_bodies]. rewrite map_map. reflexivity. Qed.
Lemma moved_fields b x u : s_name (moved b x u) = s_name b /\ s_stage (moved b x u) = s_stage b /\ s_offset (moved b x u) = s_offset b /\ s_n (moved b x u) = s_n b /\ s_T (moved b x u) = s_T b /\
  s_x0 (moved b x u) = s_x0 b /\ s_M (moved b x u) = s_M b /\ s_dirichlet (moved b x u) = s_dirichlet b.
Proof. repeat split. Qed.
(** node by node: the new velocity and position *)
Lemma step_nodes cd sv dt e e' : soft_ok e -> soft_step cd sv dt e = SDone e' ->
  exists W Fe Ft Fd Fext cs q, let n := (3 * sg_N e)%nat in let bs := sg_bodies e in
    let x := bc_positions bs (get_position_vector e) in let u := bc_velocities bs (get_velocity_vector e) in
    let F := fplus (fplus (fplus Fext Fe) Ft) Fd in
    let u_prime : vec := fun i => flat u i + dt * mdotv n W (flat F) i in
    sg_stepper e = Some (n, W) /\ forallb ready bs = true /\ elastic_forces x e = Some Fe /\ traction_forces x e = Some Ft /\ damping_forces u e = Some Fd /\ external_forces e = Some Fext /\
    cd e = Some cs /\ contact_change sv e W u_prime cs q /\ sg_contacts e' = cs /\ sq_stamp (sg_params e') = S (sq_stamp (sg_params e)) /\
    Forall2 (fun b b' => exists x' u', b' = moved b x' u' /\ forall i, (i < s_n b)%nat ->
      s_u b' i = (if is_dir b i then vzero else vadd (vadd (s_u b i) (vscale dt (unflat (mdotv n W (flat F)) (s_offset b + i)%nat))) (q (s_offset b + i)%nat)) /\
      s_x b' i = (if is_dir b i then s_x0 b i else vadd (s_x b i) (vscale dt (s_u b' i)))) (sg_bodies e) (sg_bodies e').
Proof.
  intros HO HS. destruct (step_inv cd sv dt e e' HS) as (W & Fe & Ft & Fd & Fext & cs & q & HH). exists W, Fe, Ft, Fd, Fext, cs, q. cbv zeta in HH. cbv zeta.
  destruct HH as (H1 & HR & H3 & H4 & H5 & H6 & H7 & H8 & ->). repeat (split; [assumption || reflexivity|]).
  pose proof (so_layout e HO) as HL. pose proof (so_bodies e HO) as HB.
  set (up := fun i : nat => flat (bc_velocities (sg_bodies e) (get_velocity_vector e)) i + dt * mdotv (3 * sg_N e) W (flat (fplus (fplus (fplus Fext Fe) Ft) Fd)) i).
  change (sg_bodies (sg_tick (integrate (sg_with_contacts e cs) dt (bc_positions (sg_bodies e) (get_position_vector e)) (unflat up) q))) with
    (sg_bodies (integrate (sg_with_contacts e cs) dt (bc_positions (sg_bodies e) (get_position_vector e)) (unflat up) q)).
  rewrite integrate_bodies. cbv zeta. change (sg_bodies (sg_with_contacts e cs)) with (sg_bodies e).
  assert (K : forall b, In b (sg_bodies e) -> forall i, (i < s_n b)%nat ->
    let u2 := bc_velocities (sg_bodies e) (fplus (bc_velocities (sg_bodies e) (unflat up)) q) in
    u2 (s_offset b + i)%nat = (if is_dir b i then vzero else vadd (vadd (s_u b i) (vscale dt (unflat (mdotv (3 * sg_N e) W (flat (fplus (fplus (fplus Fext Fe) Ft) Fd))) (s_offset b + i)%nat))) (q (s_offset b + i)%nat)) /\
    bc_positions (sg_bodies e) (fplus (bc_positions (sg_bodies e) (get_position_vector e)) (fscale dt u2)) (s_offset b + i)%nat =
      (if is_dir b i then s_x0 b i else vadd (s_x b i) (vscale dt (u2 (s_offset b + i)%nat)))).
  { intros b Hb i Hi. cbv zeta. split.
    - rewrite (bc_velocities_at _ _ _ b i HL HR HB Hb Hi). destruct (is_dir b i) eqn:ED; [reflexivity|]. unfold fplus at 1. f_equal.
      rewrite (bc_velocities_at _ _ _ b i HL HR HB Hb Hi), ED.
      assert (U : unflat up (s_offset b + i)%nat = vadd (unflat (flat (bc_velocities (sg_bodies e) (get_velocity_vector e))) (s_offset b + i)%nat) (vscale dt (unflat (mdotv (3 * sg_N e) W (flat (fplus (fplus (fplus Fext Fe) Ft) Fd))) (s_offset b + i)%nat))) by reflexivity.
      rewrite U, unflat_flat. f_equal. rewrite (bc_velocities_at _ _ _ b i HL HR HB Hb Hi), ED. apply (gather_at _ 0 (sg_N e)); assumption.
    - rewrite (bc_positions_at _ _ _ b i HL HR HB Hb Hi). destruct (is_dir b i) eqn:ED; [reflexivity|]. unfold fplus at 1, fscale. f_equal.
      rewrite (bc_positions_at _ _ _ b i HL HR HB Hb Hi), ED. apply (gather_at _ 0 (sg_N e)); assumption. }
  revert K. generalize (bc_velocities (sg_bodies e) (fplus (bc_velocities (sg_bodies e) (unflat up)) q)). intros u2. cbv zeta. intros K.
  revert K. generalize (bc_positions (sg_bodies e) (fplus (bc_positions (sg_bodies e) (get_position_vector e)) (fscale dt u2))). intros x2 K.
  revert K. generalize (sg_bodies e). intros bs. generalize (3 * sg_N e)%nat. intros n3 K. clear - K. induction bs as [|b bs IH]; cbn [map]; constructor.
  - exists x2, u2. split; [reflexivity|]. intros i Hi. destruct (K b (or_introl eq_refl) i Hi) as [K1 K2]. cbn [moved sb_with_x sb_with_u s_u s_x]. unfold view. split; assumption.
  - apply IH. intros c Hc. apply K. right. exact Hc.
Qed.
