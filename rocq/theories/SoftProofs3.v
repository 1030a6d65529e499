(** Proofs about SoftModel: virtual work of a time step, momentum. *)
From Coq Require Import FunctionalExtensionality.
From Verif Require Import Base VecModel VecProofs SolverModel SolverProofs ProxModel RigidTypes StepModel ConProofs ConProofs2 MechModel FemModel FemSpec FemProofs FemProofs2 SoftModel SoftSpec SoftProofs SoftProofs2.
Open Scope R_scope.

Fixpoint rsum_over {A} (f : A -> R) (l : list A) : R := match l with [] => 0 | a :: r => f a + rsum_over f r end.
Lemma rsum_over_ext {A} (f g : A -> R) l : (forall a, In a l -> f a = g a) -> rsum_over f l = rsum_over g l.
Proof. induction l as [|a l IH]; intros H; cbn; [reflexivity|]. rewrite (H a) by (left; reflexivity). rewrite IH; [reflexivity|]. intros b Hb. apply H. right. exact Hb. Qed.
Lemma rsum_over_plus {A} (f g : A -> R) l : rsum_over (fun a => f a + g a) l = rsum_over f l + rsum_over g l.
Proof. induction l as [|a l IH]; cbn; [ring|]. rewrite IH. ring. Qed.
Lemma rsum_over_scale {A} c (f : A -> R) l : rsum_over (fun a => c * f a) l = c * rsum_over f l.
Proof. induction l as [|a l IH]; cbn; [ring|]. rewrite IH. ring. Qed.
Lemma rsum_over_zero {A} (f : A -> R) l : (forall a, In a l -> f a = 0) -> rsum_over f l = 0.
Proof. induction l as [|a l IH]; intros H; cbn; [reflexivity|]. rewrite H by (left; reflexivity). rewrite IH; [ring|]. intros b Hb. apply H. right. exact Hb. Qed.
Lemma vdot_vsum_over {A} a (f : A -> vec3) l : vdot a (vsum_over f l) = rsum_over (fun x => vdot a (f x)) l.
Proof. induction l as [|x l IH]; cbn; [destruct a; vunf; ring|]. rewrite <- IH. generalize (f x) (vsum_over f l). intros b c. vring. Qed.
Lemma work_split bs : forall s N f h, layout bs s N -> forallb ready bs = true -> rsum (N - s) (fun n => vdot (f (s + n)%nat) (h (s + n)%nat)) = rsum_over (fun b => work (s_n b) (view f b) (view h b)) bs.
Proof.
  induction bs as [|b bs IH]; intros s N f h HL HR; cbn [layout] in HL; cbn [rsum_over].
  - subst. rewrite Nat.sub_diag. reflexivity.
  - cbn [forallb] in HR. apply andb_prop in HR as [R1 R2]. rewrite R1 in HL. destruct HL as [L1 L2]. pose proof (layout_le _ _ _ L2) as LE.
    rewrite <- (IH _ _ f h L2 R2). replace (N - s)%nat with (s_n b + (N - (s + s_n b)))%nat by lia. rewrite rsum_add. f_equal.
    + unfold work, view. rewrite L1. reflexivity.
    + apply rsum_ext. intros i _. rewrite !Nat.add_assoc. reflexivity.
Qed.
Lemma work_flat N f h : rsum (3 * N) (fun i => flat f i * flat h i) = work N f h.
Proof.
  unfold work. induction N as [|n IH]; [reflexivity|]. replace (3 * S n)%nat with (3 * n + 3)%nat by lia. rewrite rsum_add, IH. cbn [rsum]. f_equal. cbn [rsum].
  pose proof (unflat_flat f n) as Ef. pose proof (unflat_flat h n) as Eh. unfold unflat in Ef, Eh. rewrite <- Ef, <- Eh. unfold vdot. cbn [vx vy vz]. rewrite Nat.add_0_r. ring.
Qed.
Lemma prod_ext N T A x y : valid_mesh N T -> (forall i, (i < N)%nat -> x i = y i) -> forall n, prod_mat_vec T A x n = prod_mat_vec T A y n.
Proof.
  intros HT H n. rewrite !prod_csum. pose proof (contribs_valid N T A HT) as HC. induction HC as [|[[i j] M] l [Hi Hj] HC IH]; cbn [csum]; [reflexivity|]. rewrite (H j Hj), IH. reflexivity.
Qed.
Lemma unflat_mdotv_lin n M f g c i : unflat (mdotv n M (fun j => f j + c * g j)) i = vadd (unflat (mdotv n M f) i) (vscale c (unflat (mdotv n M g) i)).
Proof.
  assert (E : forall k, mdotv n M (fun j => f j + c * g j) k = mdotv n M f k + c * mdotv n M g k).
  { intros k. unfold mdotv. rewrite <- rsum_scale, <- rsum_plus. apply rsum_ext. intros j _. ring. }
  unfold unflat. rewrite !E. vunf. reflexivity.
Qed.
Lemma unflat_ext u v i : (forall k, (3 * i <= k < 3 * i + 3)%nat -> u k = v k) -> unflat u i = unflat v i.
Proof. intros H. unfold unflat. rewrite !H by lia. reflexivity. Qed.
Lemma mdotv_ext' n M f g i : (forall j, (j < n)%nat -> f j = g j) -> mdotv n M f i = mdotv n M g i.
Proof. intros H. unfold mdotv. apply rsum_ext. intros j Hj. rewrite H by exact Hj. reflexivity. Qed.

(** ** the solver's multipliers of a step; without contacts there are none *)
Definition step_multipliers (sv : ssolver) (e : sengine) (W : mat) (up : vec) (cs : list scontact) (q : field) (sol : vec) (J : mat) : Prop :=
  cs <> [] -> soft_jacobian (sg_with_contacts e cs) = Some J /\ q = unflat (mdotv (4 * length cs) (mat_WJT (3 * sg_N e) W J) sol).
Definition contact_work (bs : list sbody) (g : sbody -> field) (cs : list scontact) (sol : vec) : R :=
  rsum (length cs) (fun k => match nth_error cs k with None => 0 | Some cp =>
    match contact_point bs g (sc_B cp) (sc_tetB cp) (sc_wB cp), contact_point bs g (sc_A cp) (sc_tetA cp) (sc_wA cp) with
    | Some vB, Some vA => vdot (contact_impulse sol k cp) (vsub vB vA) | _, _ => 0 end end).
Lemma rsum_four n f : rsum (4 * n) f = rsum n (fun k => f (4 * k)%nat + f (4 * k + 1)%nat + f (4 * k + 2)%nat + f (4 * k + 3)%nat).
Proof. induction n as [|n IH]; [reflexivity|]. replace (4 * S n)%nat with (4 * n + 4)%nat by lia. rewrite rsum_add, IH. cbn [rsum]. rewrite Nat.add_0_r. ring. Qed.
Lemma interpolate_ext x y t w : (forall a, x (node t a) = y (node t a)) -> interpolate x t w = interpolate y t w.
Proof. intros H. unfold interpolate. rewrite !H. reflexivity. Qed.
Lemma JT_contact_work e cs J sol (g : sbody -> field) : soft_ok e -> forallb ready (sg_bodies e) = true -> soft_jacobian (sg_with_contacts e cs) = Some J ->
  rsum_over (fun b => work (s_n b) (view (unflat (JT (4 * length cs) J sol)) b) (g b)) (sg_bodies e) = contact_work (sg_bodies e) g cs sol.
Proof.
  intros HO HR HJ. set (h := gather (sg_bodies e) g).
  assert (Hh : forall b, In b (sg_bodies e) -> forall i, (i < s_n b)%nat -> view h b i = g b i) by (intros b Hb i Hi; unfold view, h; apply (gather_at _ 0 (sg_N e)); auto; apply (so_layout e HO)).
  rewrite (rsum_over_ext _ (fun b => work (s_n b) (view (unflat (JT (4 * length cs) J sol)) b) (view h b))).
  2:{ intros b Hb. unfold work. apply rsum_ext. intros i Hi. rewrite (Hh b Hb i Hi). reflexivity. }
  rewrite <- (work_split _ 0 (sg_N e) _ h (so_layout e HO) HR), Nat.sub_0_r. change (rsum (sg_N e) _) with (work (sg_N e) (unflat (JT (4 * length cs) J sol)) h).
  rewrite <- work_flat. rewrite (rsum_ext _ _ (fun j => JT (4 * length cs) J sol j * flat h j)) by (intros j _; rewrite flat_unflat; reflexivity).
  rewrite JT_dual, rsum_four. unfold contact_work. apply rsum_ext. intros k Hk. destruct (nth_error cs k) as [cp|] eqn:Ek; [|apply nth_error_None in Ek; lia].
  assert (HO1 : soft_ok (sg_with_contacts e cs)) by (destruct HO; constructor; assumption).
  destruct (jacobian_row (sg_with_contacts e cs) J HO1 HR HJ k cp Ek) as (A & B & tA & tB & vs & vt & vn & HC & HF & HRow).
  destruct (contact_nodes _ cp A B tA tB HO1 HR HC) as (HA & HB & NA & NB & _). destruct HC as (C1 & C2 & C3 & C4). unfold contact_point. cbn [sg_with_contacts sg_bodies] in C1, C2, HA, HB. rewrite C1, C2, C3, C4.
  destruct (HRow (flat h)) as (R0 & R1 & R2 & R3). cbn [sg_with_contacts sg_N] in R0, R1, R2, R3. rewrite R0, R1, R2, R3. unfold contact_impulse. unfold contact_frame in HF. rewrite HF.
  assert (EB : interpolate (view (unflat (flat h)) B) tB (sc_wB cp) = interpolate (g B) tB (sc_wB cp)) by (apply interpolate_ext; intros a; unfold view; rewrite unflat_flat; apply (Hh B HB); apply NB).
  assert (EA : interpolate (view (unflat (flat h)) A) tA (sc_wA cp) = interpolate (g A) tA (sc_wA cp)) by (apply interpolate_ext; intros a; unfold view; rewrite unflat_flat; apply (Hh A HA); apply NA).
  rewrite EB, EA. generalize (vsub (interpolate (g B) tB (sc_wB cp)) (interpolate (g A) tA (sc_wA cp))). clear. intros w. generalize (sol (4 * k)%nat) (sol (4 * k + 1)%nat) (sol (4 * k + 2)%nat) (sol (4 * k + 3)%nat). intros. destruct w, vs, vt, vn. vunf. ring.
Qed.
(** ** the equation of motion in weak form *)
Definition no_dirichlet_or_zero (e : sengine) (g : sbody -> field) : Prop := forall b, In b (sg_bodies e) -> s_dirichlet b = [] \/ forall i, (i < s_n b)%nat -> g b i = vzero.
Lemma work_zero_r N f g : (forall i, (i < N)%nat -> g i = vzero) -> work N f g = 0.
Proof. intros H. unfold work. apply rsum_zero. intros i Hi. rewrite H by exact Hi. generalize (f i). intros a. vring. Qed.
Lemma work_add N f g h : work N (fun n => vadd (f n) (g n)) h = work N f h + work N g h.
Proof. unfold work. rewrite <- rsum_plus. apply rsum_ext. intros i _. generalize (f i) (g i) (h i). intros a b c. vring. Qed.
Lemma work_scale N s f h : work N (fun n => vscale s (f n)) h = s * work N f h.
Proof. unfold work. rewrite <- rsum_scale. apply rsum_ext. intros i _. generalize (f i) (h i). intros a b. vring. Qed.
Definition momentum_work (b : sbody) (u h : field) : R := match s_M b with Some M => work (s_n b) (prod_mat_vec (s_T b) M u) h | None => 0 end.
Lemma step_weak cd sv dt e e' M : soft_ok e -> soft_step cd sv dt e = SDone e' -> soft_mass_matrix e = Some M ->
  (forall W, sg_stepper e = Some ((3 * sg_N e)%nat, W) -> is_inverse (3 * sg_N e) M W) ->
  exists Fe Ft Fd Fext sol, let x := bc_positions (sg_bodies e) (get_position_vector e) in let u := bc_velocities (sg_bodies e) (get_velocity_vector e) in
    elastic_forces x e = Some Fe /\ traction_forces x e = Some Ft /\ damping_forces u e = Some Fd /\ external_forces e = Some Fext /\ cd e = Some (sg_contacts e') /\ (exists u', solver_answer sv e (sg_contacts e') u' sol) /\
    exists phi : sbody -> sbody, sg_bodies e' = map phi (sg_bodies e) /\
    (forall b, In b (sg_bodies e) -> (exists x' u', phi b = moved b x' u') /\ forall i, (i < s_n b)%nat -> s_x (phi b) i = (if is_dir b i then s_x0 b i else vadd (s_x b i) (vscale dt (s_u (phi b) i)))) /\
    forall g, no_dirichlet_or_zero e g ->
      rsum_over (fun b => momentum_work b (s_u (phi b)) (g b)) (sg_bodies e) =
      rsum_over (fun b => momentum_work b (s_u b) (g b)) (sg_bodies e) +
      dt * rsum_over (fun b => work (s_n b) (view (fplus (fplus (fplus Fext Fe) Ft) Fd) b) (g b)) (sg_bodies e) + contact_work (sg_bodies e) g (sg_contacts e') sol.
Proof.
  intros HO HS HM HI. destruct (step_inv cd sv dt e e' HS) as (W & Fe & Ft & Fd & Fext & cs & q & HH). cbv zeta in HH. destruct HH as (H1 & HR & H3 & H4 & H5 & H6 & H7 & H8 & HE).
  specialize (HI W H1). set (F := fplus (fplus (fplus Fext Fe) Ft) Fd) in *. set (u := bc_velocities (sg_bodies e) (get_velocity_vector e)) in *. set (up := fun i : nat => flat u i + dt * mdotv (3 * sg_N e) W (flat F) i) in *.
  assert (HQ : exists sol Jw, solver_answer sv e cs up sol /\ ((forall i, unflat Jw i = vzero) /\ cs = [] /\ q = unflat (mdotv (3 * sg_N e) W Jw) \/ cs <> [] /\ exists J, soft_jacobian (sg_with_contacts e cs) = Some J /\ Jw = JT (4 * length cs) J sol /\ q = unflat (mdotv (3 * sg_N e) W Jw))).
  { destruct H8 as [[-> ->]|(Hne & J & mu & sol & E1 & _ & E3 & E4 & ->)].
    - exists vzeros, vzeros. split; [left; reflexivity|]. left. split; [intros i; reflexivity|]. split; [reflexivity|]. unfold fzero. apply functional_extensionality. intros i. unfold unflat, vzeros, mdotv. rewrite !rsum_zero by (intros; ring). reflexivity.
    - exists sol, (JT (4 * length cs) J sol). split; [right; exists J, W, mu; auto|]. right. split; [exact Hne|]. exists J. split; [exact E1|]. split; [reflexivity|]. apply functional_extensionality. intros i. apply unflat_ext. intros k _. apply WJT_product. }
  destruct HQ as (sol & Jw & HSA & HQ). exists Fe, Ft, Fd, Fext, sol. cbv zeta. fold u. repeat (split; [assumption|]).
  assert (EC : sg_contacts e' = cs) by (rewrite HE; reflexivity). rewrite EC. split; [exact H7|]. split; [exists up; exact HSA|].
  assert (Eq : q = unflat (mdotv (3 * sg_N e) W Jw)) by (destruct HQ as [(_ & _ & Q)|(_ & J & _ & _ & Q)]; exact Q).
  pose proof (so_layout e HO) as HL. pose proof (so_bodies e HO) as HB.
  set (u2 := bc_velocities (sg_bodies e) (fplus (bc_velocities (sg_bodies e) (unflat up)) q)) in *.
  set (x2 := bc_positions (sg_bodies e) (fplus (bc_positions (sg_bodies e) (get_position_vector e)) (fscale dt u2))) in *.
  exists (fun b => moved b x2 u2). split; [rewrite HE; change (sg_bodies (sg_tick ?a)) with (sg_bodies a); rewrite integrate_bodies; reflexivity|]. split.
  { intros b Hb. split; [exists x2, u2; reflexivity|]. intros i Hi. cbn [moved sb_with_x sb_with_u s_u s_x]. unfold view, x2. rewrite (bc_positions_at _ _ _ b i HL HR HB Hb Hi). destruct (is_dir b i) eqn:ED; [reflexivity|]. unfold fplus at 1, fscale. f_equal.
    rewrite (bc_positions_at _ _ _ b i HL HR HB Hb Hi), ED. apply (gather_at _ 0 (sg_N e)); assumption. }
  intros g HG.
  (* node by node *)
  assert (K : forall b Mb, In b (sg_bodies e) -> s_M b = Some Mb -> s_dirichlet b = [] -> forall i, (i < s_n b)%nat ->
    prod_mat_vec (s_T b) Mb (view u2 b) i = vadd (vadd (prod_mat_vec (s_T b) Mb (s_u b) i) (vscale dt (view F b i))) (view (unflat Jw) b i)).
  { intros b Mb Hb HMb HD i Hi. assert (ND : forall k, is_dir b k = false) by (intros k; unfold is_dir; rewrite HD; reflexivity).
    rewrite Forall_forall in HB. pose proof (bo_mesh b (HB b Hb)) as HV. rewrite <- Forall_forall in HB.
    set (v' := unflat (fun j => flat u j + dt * mdotv (3 * sg_N e) W (flat F) j + 1 * mdotv (3 * sg_N e) W Jw j)).
    rewrite (prod_ext (s_n b) _ _ _ (view v' b) HV).
    2:{ intros k Hk. unfold view, u2. rewrite (bc_velocities_at _ _ _ b k HL HR HB Hb Hk), ND. unfold fplus at 1. rewrite (bc_velocities_at _ _ _ b k HL HR HB Hb Hk), ND, Eq. unfold v', up, unflat. vunf. f_equal; ring. }
    rewrite <- (mass_at e M v' b Mb i HO HR HM Hb HMb Hi).
    assert (FU : forall z, unflat (mdotv (3 * sg_N e) M (flat (unflat z))) (s_offset b + i)%nat = unflat (mdotv (3 * sg_N e) M z) (s_offset b + i)%nat) by (intros z; apply unflat_ext; intros k _; apply mdotv_ext'; intros j _; apply flat_unflat).
    unfold v'. rewrite FU, unflat_mdotv_lin, unflat_mdotv_lin. rewrite (mass_at e M u b Mb i HO HR HM Hb HMb Hi).
    destruct (layout_range _ _ _ HL HR b Hb) as [_ LR].
    rewrite (unflat_ext (mdotv _ M (mdotv _ W (flat F))) (flat F)) by (intros k Hk; apply inverse_l; [exact HI|lia]). rewrite unflat_flat.
    rewrite (unflat_ext (mdotv _ M (mdotv _ W Jw)) Jw) by (intros k Hk; apply inverse_l; [exact HI|lia]).
    rewrite (prod_ext (s_n b) _ _ (view u b) (s_u b) HV).
    2:{ intros k Hk. unfold view, u. rewrite (bc_velocities_at _ _ _ b k HL HR HB Hb Hk), ND. apply (gather_at _ 0 (sg_N e)); assumption. }
    unfold view. generalize (prod_mat_vec (s_T b) Mb (s_u b) i) (F (s_offset b + i)%nat) (unflat Jw (s_offset b + i)%nat). intros a c d. vring. }
  assert (CW : rsum_over (fun b => work (s_n b) (view (unflat Jw) b) (g b)) (sg_bodies e) = contact_work (sg_bodies e) g cs sol).
  { destruct HQ as [(Z & -> & _)|(Hne & J & HJ & -> & _)].
    - unfold contact_work. cbn [length rsum]. apply rsum_over_zero. intros b _. unfold work. apply rsum_zero. intros i _. unfold view. rewrite Z. generalize (g b i). intros a. vring.
    - apply JT_contact_work; assumption. }
  rewrite <- CW, <- rsum_over_scale, <- !rsum_over_plus. apply rsum_over_ext. intros b Hb. destruct (mass_defined e M b HM Hb) as [Mb HMb].
  unfold momentum_work. rewrite HMb. cbn [moved sb_with_x sb_with_u s_u].
  destruct (HG b Hb) as [HD|HZ].
  - rewrite <- work_scale, <- !work_add. apply work_ext. intros i Hi. apply K; assumption.
  - rewrite !(work_zero_r _ _ _ HZ). ring.
Qed.
