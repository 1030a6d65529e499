(** Proofs about SoftModel: linear and angular momentum over a step. *)
From Verif Require Import Base VecModel VecProofs SolverModel SolverProofs ProxModel RigidTypes StepModel ConProofs ConProofs2 MechModel FemModel FemSpec FemProofs FemProofs2 MechProofs Prop_Fem Prop_Fem2 SoftModel SoftSpec SoftProofs SoftProofs2 SoftProofs3 SoftReach.
Open Scope R_scope.

Lemma rsum_over_pick (f : sbody -> R) bs b : NoDup (map s_name bs) -> In b bs -> (forall c, In c bs -> s_name c <> s_name b -> f c = 0) -> rsum_over f bs = f b.
Proof.
  induction bs as [|c bs IH]; intros ND Hb Hz; [destruct Hb|]. cbn [map] in ND. inversion ND as [|? ? N1 N2]; subst. cbn [rsum_over]. destruct Hb as [->|Hb].
  - rewrite (rsum_over_zero f bs); [ring|]. intros d Hd. apply Hz; [right; exact Hd|]. intros E. apply N1. rewrite <- E. apply in_map. exact Hd.
  - rewrite IH; [|exact N2|exact Hb|intros d Hd; apply Hz; right; exact Hd]. rewrite (Hz c (or_introl eq_refl)); [ring|]. intros E. apply N1. rewrite E. apply in_map. exact Hb.
Qed.
Lemma traction_ext N x y cs : Forall (fun t => (tr_i t < N /\ tr_j t < N /\ tr_k t < N)%nat) cs -> (forall i, (i < N)%nat -> x i = y i) -> compute_traction_forces x cs = compute_traction_forces y cs.
Proof.
  intros HF H. unfold compute_traction_forces. generalize fzero. induction HF as [|t cs (H1 & H2 & H3) HF IH]; intros f; cbn [fold_left]; [reflexivity|]. rewrite !H by assumption. apply IH.
Qed.
Lemma damping_ext N T C x y : valid_mesh N T -> (forall i, (i < N)%nat -> x i = y i) -> forall n, compute_damping_forces T C x n = compute_damping_forces T C y n.
Proof. intros HT H n. unfold compute_damping_forces. rewrite (prod_ext N T C x y HT H). reflexivity. Qed.
Lemma vtotal_ext N f g : (forall i, (i < N)%nat -> f i = g i) -> vtotal N f = vtotal N g.
Proof. induction N as [|n IH]; intros H; cbn; [reflexivity|]. rewrite IH, H by (auto; lia). reflexivity. Qed.
Lemma body_elastic_mesh e x b Fe : body_ok b -> ready b = true -> body_elastic e x b = Some Fe -> exists m lam mu, material_of e b = Some m /\ mesh_forces (sm_model m) lam mu (s_x0 b) (s_T b) (view x b) = Some Fe.
Proof.
  intros HB HR. unfold body_elastic, mesh_forces. rewrite (bo_inv b HB HR), <- (bo_grad b HB). destruct (compute_deformation_gradient _ _ _) as [F|]; [|discriminate]. destruct (material_of e b) as [m|]; [|discriminate].
  destruct (first_lame (sm_E m) (sm_nu m)) as [lam|]; [|discriminate]. destruct (second_lame (sm_E m) (sm_nu m)) as [mu|]; [|discriminate]. intros H. exists m, lam, mu. split; [reflexivity|exact H].
Qed.
(** the work of all forces on one body is the work of the applied forces and of the elastic forces *)
Lemma forces_work e Fe Ft Fd Fext b h : let x := bc_positions (sg_bodies e) (get_position_vector e) in let u := bc_velocities (sg_bodies e) (get_velocity_vector e) in
  soft_ok e -> forallb ready (sg_bodies e) = true -> elastic_forces x e = Some Fe -> traction_forces x e = Some Ft -> damping_forces u e = Some Fd -> external_forces e = Some Fext ->
  In b (sg_bodies e) -> s_dirichlet b = [] ->
  exists fe m lam mu, material_of e b = Some m /\ mesh_forces (sm_model m) lam mu (s_x0 b) (s_T b) (view x b) = Some fe /\ (forall i, (i < s_n b)%nat -> view x b i = s_x b i) /\
  work (s_n b) (view (fplus (fplus (fplus Fext Fe) Ft) Fd) b) h = work (s_n b) (applied_forces e b) h + work (s_n b) fe h.
Proof.
  intros x u HO HR HE HT HD HX Hb HDir. pose proof (so_layout e HO) as HL. pose proof (so_bodies e HO) as HB. assert (Bb : body_ok b) by (rewrite Forall_forall in HB; apply HB; exact Hb).
  assert (Rb : ready b = true) by (rewrite forallb_forall in HR; apply HR; exact Hb).
  assert (ND : forall k, is_dir b k = false) by (intros k; unfold is_dir; rewrite HDir; reflexivity).
  assert (X : forall i, (i < s_n b)%nat -> view x b i = s_x b i). { intros i Hi. unfold view, x. rewrite (bc_positions_at _ _ _ b i HL HR HB Hb Hi), ND. apply (gather_at _ 0 (sg_N e)); assumption. }
  assert (U : forall i, (i < s_n b)%nat -> view u b i = s_u b i). { intros i Hi. unfold view, u. rewrite (bc_velocities_at _ _ _ b i HL HR HB Hb Hi), ND. apply (gather_at _ 0 (sg_N e)); assumption. }
  destruct (collect_spec _ _ _ _ _ _ HL HR HE) as [_ PE]. destruct (PE b Hb) as (fe & Ee & Ve).
  destruct (collect_spec _ _ _ _ _ _ HL HR HT) as [_ PT]. destruct (PT b Hb) as (ft & Et & Vt). injection Et as <-.
  destruct (collect_spec _ _ _ _ _ _ HL HR HD) as [_ PD]. destruct (PD b Hb) as (fd & Ed & Vd). destruct (s_C b) as [C|] eqn:EC; [|discriminate]. injection Ed as <-.
  destruct (collect_spec _ _ _ _ _ _ HL HR HX) as [_ PX]. destruct (PX b Hb) as (fx & Ex & Vx).
  destruct (body_elastic_mesh e x b fe Bb Rb Ee) as (m & lam & mu & Em & EMf). rewrite Em in Ex. injection Ex as <-.
  exists fe, m, lam, mu. split; [exact Em|]. split; [exact EMf|]. split; [exact X|]. rewrite <- work_add. apply work_ext. intros i Hi. unfold applied_forces. rewrite Em, EC.
  unfold view at 1. unfold fplus. rewrite (Ve i Hi), (Vt i Hi), (Vd i Hi), (Vx i Hi). rewrite (traction_ext (s_n b) (view x b) (s_x b) _ (bo_trac b Bb) X). rewrite (damping_ext (s_n b) _ _ (view u b) (s_u b) (bo_mesh b Bb) U).
  generalize (compute_gravity_forces (s_T b) (s_vol0 b) (sm_rho m) (s_gravity b) i) (fe i) (compute_traction_forces (s_x b) (s_traction b) i) (compute_damping_forces (s_T b) C (s_u b) i). intros v1 v2 v3 v4. vring.
Qed.
Lemma interpolate_const a t w : interpolate (fun _ => a) t w = vscale (wsum w) a.
Proof. unfold interpolate, wsum. generalize (w4 w 0) (w4 w 1) (w4 w 2) (w4 w 3). intros. destruct a. vunf. f_equal; ring. Qed.
Lemma interpolate_zero t w : interpolate fzero t w = vzero.
Proof. unfold interpolate, fzero. vunf. f_equal; ring. Qed.
Lemma interpolate_cross x w0 t w : interpolate (fun i => vcross w0 (x i)) t w = vcross w0 (interpolate x t w).
Proof. unfold interpolate. generalize (w4 w 0) (w4 w 1) (w4 w 2) (w4 w 3) (x (node t 0%nat)) (x (node t 1%nat)) (x (node t 2%nat)) (x (node t 3%nat)). clear. intros. destruct w0, v, v0, v1, v2. vunf. f_equal; ring. Qed.
Lemma vdot_vtotal N a f : vdot a (vtotal N f) = rsum N (fun k => vdot a (f k)).
Proof. induction N as [|n IH]; cbn [vtotal rsum]; [destruct a; vunf; ring|]. rewrite <- IH. generalize (vtotal n f) (f n). intros b c. vring. Qed.
(** every contact of a step that succeeded is between existing tetrahedra *)
Definition contacts_located (bs : list sbody) (cs : list scontact) : Prop := forall cp, In cp cs ->
  (exists A tA, nth_error bs (sc_A cp) = Some A /\ nth_error (s_T A) (sc_tetA cp) = Some tA) /\ (exists B tB, nth_error bs (sc_B cp) = Some B /\ nth_error (s_T B) (sc_tetB cp) = Some tB).
Lemma contact_work_body bs cs sol b a : contacts_located bs cs ->
  contact_work bs (fun c => if name_eqb (s_name c) (s_name b) then (fun _ => a) else fzero) cs sol = vdot a (net_impulse bs b cs sol).
Proof.
  intros HC. unfold contact_work, net_impulse, over_contacts. rewrite vdot_vtotal. apply rsum_ext. intros k Hk. destruct (nth_error cs k) as [cp|] eqn:Ek; [|destruct a; vunf; ring].
  apply nth_error_In in Ek. destruct (HC cp Ek) as [(A & tA & E1 & E2) (B & tB & E3 & E4)]. unfold contact_point, part. rewrite E1, E2, E3, E4.
  assert (X : forall (c : sbody) t w, interpolate (if name_eqb (s_name c) (s_name b) then (fun _ => a) else fzero) t w = vscale (if name_eqb (s_name c) (s_name b) then wsum w else 0) a).
  { intros c t w. destruct (name_eqb (s_name c) (s_name b)); [apply interpolate_const|]. rewrite interpolate_zero. destruct a. vunf. f_equal; ring. }
  rewrite !X. generalize (contact_impulse sol k cp) (if name_eqb (s_name A) (s_name b) then wsum (sc_wA cp) else 0) (if name_eqb (s_name B) (s_name b) then wsum (sc_wB cp) else 0). clear. intros v r1 r2. vring.
Qed.
Lemma contact_work_total bs cs sol a : contacts_located bs cs -> (forall cp, In cp cs -> wsum (sc_wA cp) = wsum (sc_wB cp)) -> contact_work bs (fun _ _ => a) cs sol = 0.
Proof.
  intros HC HW. unfold contact_work. apply rsum_zero. intros k Hk. destruct (nth_error cs k) as [cp|] eqn:Ek; [|reflexivity].
  apply nth_error_In in Ek. destruct (HC cp Ek) as [(A & tA & E1 & E2) (B & tB & E3 & E4)]. unfold contact_point. rewrite E1, E2, E3, E4, !interpolate_const, (HW cp Ek). generalize (contact_impulse sol k cp). intros v. vring.
Qed.
Lemma contact_work_rotation bs cs sol w (x : sbody -> field) : contacts_located bs cs ->
  (forall cp, In cp cs -> contact_point bs x (sc_A cp) (sc_tetA cp) (sc_wA cp) = contact_point bs x (sc_B cp) (sc_tetB cp) (sc_wB cp)) -> contact_work bs (fun b i => vcross w (x b i)) cs sol = 0.
Proof.
  intros HC HW. unfold contact_work. apply rsum_zero. intros k Hk. destruct (nth_error cs k) as [cp|] eqn:Ek; [|reflexivity].
  apply nth_error_In in Ek. specialize (HW cp Ek). destruct (HC cp Ek) as [(A & tA & E1 & E2) (B & tB & E3 & E4)]. unfold contact_point in *. rewrite E1, E2, E3, E4 in *. apply some_eq in HW. rewrite !interpolate_cross, HW.
  generalize (contact_impulse sol k cp) (vcross w (interpolate (x B) tB (sc_wB cp))). intros v v'. vring.
Qed.
Lemma step_located cd sv dt e e' : soft_ok e -> soft_step cd sv dt e = SDone e' -> contacts_located (sg_bodies e) (sg_contacts e').
Proof.
  intros HO HS. destruct (step_inv cd sv dt e e' HS) as (W & Fe & Ft & Fd & Fext & cs & q & HH). cbv zeta in HH. destruct HH as (H1 & HR & H3 & H4 & H5 & H6 & H7 & H8 & HE).
  assert (EC : sg_contacts e' = cs) by (rewrite HE; reflexivity). rewrite EC. intros cp Hcp. destruct H8 as [[-> _]|(_ & J & mu & sol & HJ & _)]; [destruct Hcp|].
  apply In_nth_error in Hcp as [k Hk]. assert (HO1 : soft_ok (sg_with_contacts e cs)) by (destruct HO; constructor; assumption).
  destruct (jacobian_row (sg_with_contacts e cs) J HO1 HR HJ k cp Hk) as (A & B & tA & tB & vs & vt & vn & (C1 & C2 & C3 & C4) & _). split; eauto.
Qed.
Lemma momentum_work_dot b u a : momentum_work b u (fun _ => a) = vdot a (body_momentum b u).
Proof. unfold momentum_work, body_momentum. destruct (s_M b); [rewrite vtotal_dot; reflexivity|destruct a; vunf; ring]. Qed.
Lemma momentum_work_cross b u w x : momentum_work b u (fun i => vcross w (x i)) = vdot w (body_angular_momentum b x u).
Proof. unfold momentum_work, body_angular_momentum. destruct (s_M b); [rewrite torque_dot; reflexivity|destruct w; vunf; ring]. Qed.
(** with a lumped mass matrix the momentum of a node is parallel to its velocity *)
Lemma lumped_parallel N T vol rho u w : valid_mesh N T -> work N (prod_mat_vec T (compute_mass_element_array rho vol true) u) (fun n => vcross w (u n)) = 0.
Proof.
  intros HT. rewrite (mass_work N T vol rho true _ _ HT). induction (combine T vol) as [|[t v] l IH]; cbn [map sum fold_right]; [reflexivity|]. unfold sum in IH. rewrite IH. cbn [fst snd elem_form]. unfold lumped_form.
  assert (Z : forall a, vdot a (vcross w a) = 0) by (intros a; destruct w, a; vunf; ring). rewrite !Z. field.
Qed.
