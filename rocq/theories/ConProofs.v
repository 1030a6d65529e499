(** Jacobians of contacts and hinges. *)
From Verif Require Import Base QuatModel VecModel BvhModel GridModel VolModel VecProofs SolverModel SolverProofs ProxModel QuatProofs RigidTypes RigidSpec CollModel StepModel
  StepProofs StepProofs2 ConSpec.
Open Scope R_scope.

Lemma some_eq {A} (x y : A) : Some x = Some y -> x = y.
Proof. congruence. Qed.
(** ** sparse matrix times vector *)
Definition tsum (i : nat) (u : vec) (l : list triplet) : R :=
  fold_right (fun t s => let '(r, c, d) := t in if Nat.eqb r i then d * u c + s else s) 0 l.
Lemma rsum_single n c f : (c < n)%nat -> (forall j, (j < n)%nat -> j <> c -> f j = 0) -> rsum n f = f c.
Proof.
  intros Hc H. induction n as [|n IH]; [lia|]. cbn. destruct (Nat.eq_dec c n) as [->|Hne].
  - rewrite rsum_zero; [ring|]. intros i Hi. apply H; lia.
  - rewrite IH by (try lia; intros; apply H; lia). rewrite (H n) by lia. ring.
Qed.
Lemma csr_dot N l u i : Forall (fun t => let '(_, c, _) := t in (c < N)%nat) l -> mdotv N (csr l) u i = tsum i u l.
Proof.
  induction l as [|[[r c] d] l IH]; intros H; inversion H as [|? ? Hc Hl]; subst.
  - unfold mdotv. cbn. apply rsum_zero. intros; ring.
  - cbn [tsum fold_right]. fold (tsum i u l). rewrite <- IH by auto. unfold mdotv. cbn [csr fold_right]. fold (csr l).
    destruct (Nat.eqb_spec r i) as [->|Hr]; cbn [andb].
    + rewrite (rsum_ext N _ (fun j => (if Nat.eqb c j then d * u j else 0) + csr l i j * u j)).
      2:{ intros j _. destruct (Nat.eqb c j); cbn; unfold csr; ring. }
      rewrite rsum_plus. f_equal. rewrite (rsum_single N c) by (auto; intros j Hj Hne; destruct (Nat.eqb_spec c j); congruence).
      rewrite Nat.eqb_refl. reflexivity.
    + reflexivity.
Qed.
Lemma tsum_app i u a b : tsum i u (a ++ b) = tsum i u a + tsum i u b.
Proof.
  unfold tsum. induction a as [|[[r c] d] a IH]; cbn [app fold_right]; [ring|]. rewrite IH. destruct (Nat.eqb r i); ring.
Qed.
Lemma tsum_out i u l : Forall (fun t => let '(r, _, _) := t in r <> i) l -> tsum i u l = 0.
Proof. induction l as [|[[r c] d] l IH]; intros H; inversion H; subst; cbn; auto. destruct (Nat.eqb_spec r i); [congruence|]. apply IH; auto. Qed.
Lemma tsum_concat i u ls : forall k l, nth_error ls k = Some l ->
  (forall k' l', nth_error ls k' = Some l' -> k' <> k -> Forall (fun t => let '(r, _, _) := t in r <> i) l') -> tsum i u (concat ls) = tsum i u l.
Proof.
  induction ls as [|a ls IH]; intros k l Hk H; [destruct k; discriminate|]. cbn [concat]. rewrite tsum_app. destruct k as [|k]; cbn in Hk.
  - assert (a = l) by congruence. subst. enough (tsum i u (concat ls) = 0) by lra. apply tsum_out.
    apply Forall_forall. intros t Ht. apply in_concat in Ht as (l' & Hl' & Ht). apply In_nth_error in Hl' as [k' Hk'].
    specialize (H (S k') l' Hk' ltac:(discriminate)). rewrite Forall_forall in H. apply H; auto.
  - rewrite (tsum_out i u a). 2:{ apply (H 0%nat); auto. } rewrite (IH k l); auto; [ring|]. intros k' l' Hk' Hne. apply (H (S k')); auto.
Qed.
Lemma tsum_row row A B av aw bv bw u i : tsum i u (row_entries row A B av aw bv bw) =
  if Nat.eqb row i then vdot av (read3 u (6 * A)) + vdot aw (read3 u (6 * A + 3)) + vdot bv (read3 u (6 * B)) + vdot bw (read3 u (6 * B + 3)) else 0.
Proof.
  cbn [tsum row_entries fold_right]. destruct (Nat.eqb row i); [|reflexivity]. unfold vdot, read3; cbn [vx vy vz].
  replace (6 * A + 3 + 1)%nat with (6 * A + 4)%nat by lia. replace (6 * A + 3 + 2)%nat with (6 * A + 5)%nat by lia.
  replace (6 * B + 3 + 1)%nat with (6 * B + 4)%nat by lia. replace (6 * B + 3 + 2)%nat with (6 * B + 5)%nat by lia. ring.
Qed.
Lemma row_entries_ok row A B av aw bv bw n : (A < n)%nat -> (B < n)%nat ->
  Forall (fun t => let '(r, c, _) := t in r = row /\ (c < 6 * n)%nat) (row_entries row A B av aw bv bw).
Proof. intros HA HB. unfold row_entries. repeat constructor; lia. Qed.

Lemma find_body_spec e nm b : find_body e nm = Some b -> In b (e_bodies e) /\ b_name b = nm.
Proof.
  unfold find_body. intros H. apply find_some in H as [H1 H2]. split; auto. revert H2. clear. revert nm. generalize (b_name b).
  induction n as [|x n IH]; destruct nm as [|y nm]; cbn; try congruence. destruct (Nat.eqb_spec x y); cbn; [|discriminate]. intros H. f_equal; auto.
Qed.
Lemma indexed_lt e b : bodies_indexed e -> In b (e_bodies e) -> nth_error (e_bodies e) (b_idx b) = Some b /\ (b_idx b < length (e_bodies e))%nat.
Proof.
  intros HI Hb. apply In_nth_error in Hb as [k Hk]. rewrite (HI _ _ Hk). split; auto. apply nth_error_Some. congruence.
Qed.
Lemma orthonormal_some d s t n : make_orthonormal_vectors d = Some (s, t, n) -> frame_along d s t n.
Proof.
  intros H. assert (Hd : d <> vzero).
  { intros ->. unfold make_orthonormal_vectors in H. destruct (Reqb_spec (vnorm vzero) 0) as [_|Hn]; [discriminate|].
    apply Hn. unfold vnorm, vdot; cbn. rewrite !Rmult_0_l, !Rplus_0_l. apply sqrt_0. }
  destruct (orthonormal_spec d Hd) as (t' & b' & n' & E & F). rewrite E in H.
  assert (t' = s) by congruence. assert (b' = t) by congruence. assert (n' = n) by congruence. subst. unfold frame_along. tauto.
Qed.

Ltac vnz := unfold velocity_at, point_velocity, lin, ang.
(** ** contacts *)
Lemma contact_row e J k cp : bodies_indexed e -> contact_jacobian e = Some J -> nth_error (e_contacts e) k = Some cp ->
  exists A B s t n, find_body e (c_A cp) = Some A /\ find_body e (c_B cp) = Some B /\ make_orthonormal_vectors (c_n cp) = Some (s, t, n) /\
  forall u, let rel := vsub (velocity_at u B (c_p cp)) (velocity_at u A (c_p cp)) in
    mdotv (6 * length (e_bodies e)) J u (4 * k)%nat = vdot n rel /\
    mdotv (6 * length (e_bodies e)) J u (4 * k + 1)%nat = vdot s rel /\
    mdotv (6 * length (e_bodies e)) J u (4 * k + 2)%nat = vdot t rel /\
    mdotv (6 * length (e_bodies e)) J u (4 * k + 3)%nat = vdot n (vsub (ang u B) (ang u A)).
Proof.
  intros HI HJ Hk. unfold contact_jacobian in HJ.
  match type of HJ with context [map_opt ?h ?l] => set (f := h) in HJ; destruct (map_opt f l) as [ts|] eqn:E; [|discriminate] end.
  injection HJ; intros <-. clear HJ.
  assert (HA : forall k cp l, nth_error (e_contacts e) k = Some cp -> contact_entries e k cp = Some l ->
    Forall (fun t => let '(r, c, _) := t in (4 * k <= r < 4 * k + 4)%nat /\ (c < 6 * length (e_bodies e))%nat) l).
  { intros k0 cp0 l _ Hl. unfold contact_entries in Hl. destruct (find_body e (c_A cp0)) as [A|] eqn:EA; [|discriminate].
    destruct (find_body e (c_B cp0)) as [B|] eqn:EB; [|discriminate]. destruct (make_orthonormal_vectors (c_n cp0)) as [[[s t] n]|]; [|discriminate].
    apply find_body_spec in EA as [EA _]. apply find_body_spec in EB as [EB _].
    destruct (indexed_lt _ _ HI EA) as [_ LA]. destruct (indexed_lt _ _ HI EB) as [_ LB].
    cbv zeta beta in Hl. apply some_eq in Hl. subst l. rewrite !Forall_app.
    repeat split; (eapply Forall_impl; [|apply (row_entries_ok _ _ _ _ _ _ _ _ LA LB)]); intros [[r c] d] [-> Hc]; lia. }
  assert (HTS : forall k' l', nth_error ts k' = Some l' -> exists cp', nth_error (e_contacts e) k' = Some cp' /\ contact_entries e k' cp' = Some l').
  { intros k' l' Hl'. destruct (nth_error (e_contacts e) k') as [cp'|] eqn:Ek.
    - exists cp'. split; auto. assert (Eb := map_opt_nth f (enum (e_contacts e)) ts k' E). rewrite enum_nth, Ek, Hl' in Eb. cbn in Eb. auto.
    - apply nth_error_None in Ek. assert (k' < length ts)%nat by (apply nth_error_Some; congruence).
      rewrite (map_opt_length _ _ _ E), enum_length in H. lia. }
  assert (exists l, nth_error ts k = Some l) as [l Hl].
  { destruct (nth_error ts k) eqn:El; eauto. apply nth_error_None in El. assert (k < length (e_contacts e))%nat by (apply nth_error_Some; congruence).
    rewrite (map_opt_length _ _ _ E), enum_length in El. lia. }
  destruct (HTS _ _ Hl) as (cp' & Hcp' & El). assert (cp' = cp) by congruence. subst cp'.
  assert (HC : Forall (fun t : triplet => let '(_, c, _) := t in (c < 6 * length (e_bodies e))%nat) (concat ts)).
  { apply Forall_forall. intros [[r c] d] Ht. apply in_concat in Ht as (l' & Hl' & Ht). apply In_nth_error in Hl' as [k' Hk'].
    destruct (HTS _ _ Hk') as (cp' & Ek & Ec). specialize (HA _ _ _ Ek Ec). rewrite Forall_forall in HA. apply HA in Ht. lia. }
  assert (HR : forall i u, (i < 4)%nat -> mdotv (6 * length (e_bodies e)) (csr (concat ts)) u (4 * k + i)%nat = tsum (4 * k + i) u l).
  { intros i u Hi. rewrite csr_dot by auto. apply (tsum_concat _ _ ts k); auto. intros k' l' Hk' Hne.
    destruct (HTS _ _ Hk') as (cp' & Ek & Ec). specialize (HA _ _ _ Ek Ec). eapply Forall_impl; [|exact HA]. intros [[r c] d] Hr. lia. }
  unfold contact_entries in El. destruct (find_body e (c_A cp)) as [A|] eqn:EA; [|discriminate].
  destruct (find_body e (c_B cp)) as [B|] eqn:EB; [|discriminate]. destruct (make_orthonormal_vectors (c_n cp)) as [[[s t] n]|] eqn:EO; [|discriminate].
  exists A, B, s, t, n. repeat (split; [reflexivity|]). intros u rel. cbv zeta beta in El. apply some_eq in El. subst l.
  replace (4 * k)%nat with (4 * k + 0)%nat at 1 by lia. rewrite !HR by lia. rewrite !tsum_app, !tsum_row.
  repeat match goal with |- context [Nat.eqb (4 * k + ?a) (4 * k + ?b)] => destruct (Nat.eqb_spec (4 * k + a) (4 * k + b)); try (exfalso; lia) end.
  unfold rel, velocity_at, point_velocity, lin, ang. generalize (read3 u (6 * b_idx A)) (read3 u (6 * b_idx A + 3)) (read3 u (6 * b_idx B)) (read3 u (6 * b_idx B + 3)).
  intros [vAx vAy vAz] [wAx wAy wAz] [vBx vBy vBz] [wBx wBy wBz].
  destruct (c_p cp) as [px py pz], (b_r A) as [rAx rAy rAz], (b_r B) as [rBx rBy rBz], s as [sx sy sz], t as [tx ty tz], n as [nx ny nz].
  clear. unfold vdot, vcross, vsub, vadd, vopp, vzero; cbn [vx vy vz]. repeat split; ring.
Qed.

(** ** hinges *)
Lemma hinge_row e J k h : bodies_indexed e -> hinges_indexed e -> hinge_jacobian e = Some J -> nth_error (e_hinges e) k = Some h ->
  exists sp sc P C t b n, h_sockets h = Some (sp, sc) /\ find_body e (sk_body sp) = Some P /\ find_body e (sk_body sc) = Some C /\
  make_orthonormal_vectors (axis_w P sp) = Some (t, b, n) /\
  forall u, read3 (mdotv (6 * length (e_bodies e)) J u) (5 * k) = vsub (velocity_at u P (anchor P sp)) (velocity_at u C (anchor C sc)) /\
    mdotv (6 * length (e_bodies e)) J u (5 * k + 3)%nat = vdot t (vsub (ang u P) (ang u C)) /\
    mdotv (6 * length (e_bodies e)) J u (5 * k + 4)%nat = vdot b (vsub (ang u P) (ang u C)).
Proof.
  intros HI HH HJ Hk. unfold hinge_jacobian in HJ. destruct (map_opt (hinge_entries e) (e_hinges e)) as [ts|] eqn:E; [|discriminate].
  injection HJ; intros <-. clear HJ.
  assert (HA : forall k h l, nth_error (e_hinges e) k = Some h -> hinge_entries e h = Some l ->
    Forall (fun t => let '(r, c, _) := t in (5 * k <= r < 5 * k + 5)%nat /\ (c < 6 * length (e_bodies e))%nat) l).
  { intros k0 h0 l Hk0 Hl. assert (EI := HH _ _ Hk0). unfold hinge_entries in Hl. destruct (h_sockets h0) as [[sp sc]|]; [|discriminate].
    destruct (find_body e (sk_body sp)) as [A|] eqn:EA; [|discriminate].
    destruct (find_body e (sk_body sc)) as [B|] eqn:EB; [|discriminate]. destruct (make_orthonormal_vectors _) as [[[s t] n]|]; [|discriminate].
    apply find_body_spec in EA as [EA _]. apply find_body_spec in EB as [EB _].
    destruct (indexed_lt _ _ HI EA) as [_ LA]. destruct (indexed_lt _ _ HI EB) as [_ LB].
    cbv zeta beta in Hl. apply some_eq in Hl. subst l. rewrite !Forall_app. rewrite EI.
    repeat split; (eapply Forall_impl; [|apply (row_entries_ok _ _ _ _ _ _ _ _ LA LB)]); intros [[r c] d] [-> Hc]; lia. }
  assert (HTS : forall k' l', nth_error ts k' = Some l' -> exists h', nth_error (e_hinges e) k' = Some h' /\ hinge_entries e h' = Some l').
  { intros k' l' Hl'. destruct (nth_error (e_hinges e) k') as [h'|] eqn:Ek.
    - exists h'. split; auto. assert (Eb := map_opt_nth _ _ ts k' E). rewrite Ek, Hl' in Eb. auto.
    - apply nth_error_None in Ek. assert (k' < length ts)%nat by (apply nth_error_Some; congruence).
      rewrite (map_opt_length _ _ _ E) in H. lia. }
  assert (exists l, nth_error ts k = Some l) as [l Hl].
  { destruct (nth_error ts k) eqn:El; eauto. apply nth_error_None in El. assert (k < length (e_hinges e))%nat by (apply nth_error_Some; congruence).
    rewrite (map_opt_length _ _ _ E) in El. lia. }
  destruct (HTS _ _ Hl) as (h' & Hh' & El). assert (h' = h) by congruence. subst h'.
  assert (HC : Forall (fun t : triplet => let '(_, c, _) := t in (c < 6 * length (e_bodies e))%nat) (concat ts)).
  { apply Forall_forall. intros [[r c] d] Ht. apply in_concat in Ht as (l' & Hl' & Ht). apply In_nth_error in Hl' as [k' Hk'].
    destruct (HTS _ _ Hk') as (cp' & Ek & Ec). specialize (HA _ _ _ Ek Ec). rewrite Forall_forall in HA. apply HA in Ht. lia. }
  assert (HR : forall i u, (i < 5)%nat -> mdotv (6 * length (e_bodies e)) (csr (concat ts)) u (5 * k + i)%nat = tsum (5 * k + i) u l).
  { intros i u Hi. rewrite csr_dot by auto. apply (tsum_concat _ _ ts k); auto. intros k' l' Hk' Hne.
    destruct (HTS _ _ Hk') as (cp' & Ek & Ec). specialize (HA _ _ _ Ek Ec). eapply Forall_impl; [|exact HA]. intros [[r c] d] Hr. lia. }
  assert (EI := HH _ _ Hk). unfold hinge_entries in El. destruct (h_sockets h) as [[sp sc]|]; [|discriminate].
  destruct (find_body e (sk_body sp)) as [A|] eqn:EA; [|discriminate].
  destruct (find_body e (sk_body sc)) as [B|] eqn:EB; [|discriminate]. 
  destruct (make_orthonormal_vectors (q_rotate (b_q A) (sk_axis sp))) as [[[s t] n]|] eqn:EO; [|discriminate].
  exists sp, sc, A, B, s, t, n. do 4 (split; [reflexivity || exact EO || auto|]). intros u. cbv zeta beta in El. apply some_eq in El. subst l. rewrite EI in HR.
  unfold read3 at 1. replace (mdotv (6 * length (e_bodies e)) (csr (concat ts)) u (5 * k)%nat) with (mdotv (6 * length (e_bodies e)) (csr (concat ts)) u (5 * k + 0)%nat) by (f_equal; lia).
  rewrite !HR by lia. rewrite !tsum_app, !tsum_row.
  repeat match goal with |- context [Nat.eqb (5 * k + ?a) (5 * k + ?b)] => destruct (Nat.eqb_spec (5 * k + a) (5 * k + b)); try (exfalso; lia) end.
  unfold velocity_at, point_velocity, lin, ang, anchor. generalize (read3 u (6 * b_idx A)) (read3 u (6 * b_idx A + 3)) (read3 u (6 * b_idx B)) (read3 u (6 * b_idx B + 3)).
  generalize (q_rotate (b_q A) (sk_arm sp)) (q_rotate (b_q B) (sk_arm sc)).
  intros [ax ay az] [cx cy cz] [vAx vAy vAz] [wAx wAy wAz] [vBx vBy vBz] [wBx wBy wBz].
  destruct (b_r A) as [rAx rAy rAz], (b_r B) as [rBx rBy rBz], s as [sx sy sz], t as [tx ty tz], n as [nx ny nz].
  clear. unfold m3_star, mrow0, mrow1, mrow2, v3_i, v3_j, v3_k, vdot, vcross, vsub, vadd, vopp, vzero; cbn.
  repeat split; try (f_equal; ring); ring.
Qed.
