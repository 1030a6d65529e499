(** Contacts and joints of the rigid body simulator: C51, C52, C53, C54, C60, C63, C77, C78. *)
From Verif Require Import Base QuatModel VecModel BvhModel GridModel VolModel VecProofs SolverModel SolverProofs ProxModel QuatProofs QuatMatProofs RotProofs
  BvhSpec RigidTypes RigidSpec CollModel StepModel StepProofs StepProofs2 ReadySpec ReadyProofs ConSpec ConProofs ConProofs2 FrameProofs Prop_Step.
Open Scope R_scope.

(** * C52 *)
(** Row by row: the relative velocity, at the contact point, of the second body with respect to the first, along the
    normal and two tangents, and the relative spin about the normal. *)
Theorem C52_contacts e J k cp : bodies_indexed e -> contact_jacobian e = Some J -> nth_error (e_contacts e) k = Some cp ->
  exists A B s t n, find_body e (c_A cp) = Some A /\ find_body e (c_B cp) = Some B /\ frame_along (c_n cp) s t n /\
  forall u, let rel := vsub (velocity_at u B (c_p cp)) (velocity_at u A (c_p cp)) in
    let Ju := mdotv (6 * length (e_bodies e)) J u in
    Ju (4 * k)%nat = vdot n rel /\ Ju (4 * k + 1)%nat = vdot s rel /\ Ju (4 * k + 2)%nat = vdot t rel /\
    Ju (4 * k + 3)%nat = vdot n (vsub (ang u B) (ang u A)).
Proof.
  intros HI HJ Hk. destruct (contact_row _ _ _ _ HI HJ Hk) as (A & B & s & t & n & EA & EB & EO & H).
  exists A, B, s, t, n. split; [auto|]. split; [auto|]. split; [apply orthonormal_some; auto|]. intros u. exact (H u).
Qed.
(** Five rows per hinge: relative velocity of the two anchor points, and relative spin along two directions
    orthogonal to the axis. *)
Theorem C52_hinges e J k h : bodies_indexed e -> hinges_indexed e -> hinge_jacobian e = Some J -> nth_error (e_hinges e) k = Some h ->
  exists sp sc P C t b n, h_sockets h = Some (sp, sc) /\ find_body e (sk_body sp) = Some P /\ find_body e (sk_body sc) = Some C /\
  frame_along (axis_w P sp) t b n /\
  forall u, let Ju := mdotv (6 * length (e_bodies e)) J u in
    read3 Ju (5 * k) = vsub (velocity_at u P (anchor P sp)) (velocity_at u C (anchor C sc)) /\
    Ju (5 * k + 3)%nat = vdot t (vsub (ang u P) (ang u C)) /\
    Ju (5 * k + 4)%nat = vdot b (vsub (ang u P) (ang u C)).
Proof.
  intros HI HH HJ Hk. destruct (hinge_row _ _ _ _ HI HH HJ Hk) as (sp & sc & P & C & t & b & n & Es & EP & EC & EO & H).
  exists sp, sc, P, C, t, b, n. do 3 (split; [auto|]). split; [apply orthonormal_some; auto|]. intros u. exact (H u).
Qed.
(** in particular the spin rows vanish exactly when the relative spin is along the hinge axis *)
Theorem C52_hinge_axis e J k h u : bodies_indexed e -> hinges_indexed e -> hinge_jacobian e = Some J -> nth_error (e_hinges e) k = Some h ->
  exists sp sc P C, h_sockets h = Some (sp, sc) /\ find_body e (sk_body sp) = Some P /\ find_body e (sk_body sc) = Some C /\
  let Ju := mdotv (6 * length (e_bodies e)) J u in
  (Ju (5 * k + 3)%nat = 0 /\ Ju (5 * k + 4)%nat = 0 <-> exists c, vsub (ang u P) (ang u C) = vscale c (axis_w P sp)).
Proof.
  intros HI HH HJ Hk. destruct (C52_hinges e J k h HI HH HJ Hk) as (sp & sc & P & C & t & b & n & Es & EP & EC & HF & H).
  exists sp, sc, P, C. do 3 (split; [auto|]). destruct (H u) as (_ & H1 & H2). cbv zeta in *. rewrite H1, H2. clear H H1 H2.
  destruct HF as (En & Ht & Hb & Hn & Htb & Hbn & Hnt & Hc). set (d := vsub (ang u P) (ang u C)). set (a := axis_w P sp) in *.
  assert (Ha : vnorm a <> 0). { intros E. rewrite E in En. subst n. unfold vdiv, vdot in Hn; cbn in Hn. unfold Rdiv in Hn. rewrite Rinv_0 in Hn. lra. }
  assert (Ea : a = vscale (vnorm a) n). { subst n. destruct a as [x y z]. unfold vdiv, vscale; cbn. f_equal; field; auto. }
  assert (Exp : d = vadd (vadd (vscale (vdot t d) t) (vscale (vdot b d) b)) (vscale (vdot n d) n)).
  { rewrite <- Hc. apply (frame_expand t b d); auto. }
  split.
  - intros [E1 E2]. rewrite E1, E2 in Exp. exists (vdot n d / vnorm a). rewrite Ea at 2. rewrite Exp at 1. destruct t, b, n. unfold vadd, vscale; cbn. f_equal; field; auto.
  - intros [c Ec]. rewrite Ec, Ea. clear - Hnt Hbn Ha. destruct t as [t1 t2 t3], b as [b1 b2 b3], n as [n1 n2 n3]. unfold vdot, vscale in *; cbn in *. split.
    + transitivity (c * vnorm a * (n1 * t1 + n2 * t2 + n3 * t3)); [ring|rewrite Hnt; ring].
    + transitivity (c * vnorm a * (b1 * n1 + b2 * n2 + b3 * n3)); [ring|rewrite Hbn; ring].
Qed.

(** * C51 *)
Theorem C51_contacts e J x : bodies_indexed e -> contact_jacobian e = Some J ->
  let p := gen_impulse (4 * length (e_contacts e)) J x in
  total_linear (e_bodies e) p = vzero /\ total_angular (e_bodies e) p = vzero.
Proof.
  intros HI HJ. split.
  - apply no_linear. intros a i Hi. apply contact_rigid; auto.
  - apply no_angular. intros a w i Hi. apply contact_rigid; auto.
Qed.
(** the anchor points of every hinge coincide *)
Definition anchors_meet (e : engine) : Prop := forall h sp sc P C, In h (e_hinges e) -> h_sockets h = Some (sp, sc) ->
  find_body e (sk_body sp) = Some P -> find_body e (sk_body sc) = Some C -> anchor P sp = anchor C sc.
Theorem C51_hinges e J x : bodies_indexed e -> hinges_indexed e -> hinge_jacobian e = Some J ->
  let p := gen_impulse (5 * length (e_hinges e)) J x in
  total_linear (e_bodies e) p = vzero /\ (anchors_meet e -> total_angular (e_bodies e) p = vzero).
Proof.
  intros HI HH HJ. split.
  - apply no_linear. intros a i Hi. apply hinge_rigid; auto.
  - intros HA. apply no_angular. intros a w i Hi. apply hinge_rigid; auto.
Qed.

(** * C60 *)
Lemma mmul_assoc3 A B C : mmul (mmul A B) C = mmul A (mmul B C).
Proof. destruct A, B, C. unfold mmul; cbn. f_equal; ring. Qed.
Lemma mmul_id_r A : mmul A mid = A.
Proof. destruct A. unfold mmul, mid; cbn. f_equal; ring. Qed.
Lemma mmul_id_l A : mmul mid A = A.
Proof. destruct A. unfold mmul, mid; cbn. f_equal; ring. Qed.
(** update_inertia_tensor(R, B) is R diag(B) R^T, and it is symmetric *)
Theorem C60_tensor A B : update_inertia_tensor A B = mmul (mmul A (mdiag B)) (mT A) /\ mT (update_inertia_tensor A B) = update_inertia_tensor A B.
Proof. split; [apply tensor_eq|reflexivity]. Qed.
(** positive definite for a rotation and positive moments *)
Theorem C60_positive A B v : is_rotation A -> 0 < vx B -> 0 < vy B -> 0 < vz B -> v <> vzero -> 0 < vdot v (mvec (update_inertia_tensor A B) v).
Proof.
  intros [HR _] Hx Hy Hz Hv. set (w := mvec (mT A) v).
  assert (E : vdot v (mvec (update_inertia_tensor A B) v) = vx B * (vx w * vx w) + vy B * (vy w * vy w) + vz B * (vz w * vz w)).
  { unfold w. destruct A, B, v. unfold update_inertia_tensor, vdot, mvec, mT; cbn. ring. }
  rewrite E. assert (Hw : w <> vzero).
  { intros Z. apply Hv. assert (Q : mvec A w = v). { unfold w. transitivity (mvec (mmul A (mT A)) v). { destruct A, v. unfold mvec, mmul, mT, vdot; cbn. f_equal; ring. } rewrite HR. destruct v. unfold mvec, mid, vdot; cbn. f_equal; ring. }
    rewrite <- Q, Z. destruct A. unfold mvec, vzero, vdot; cbn. f_equal; ring. }
  assert (Hn := vnorm_pos w Hw). assert (Hs := vnorm_sq w). assert (0 < vdot w w) by (rewrite <- Hs; nra). unfold vdot in H.
  assert (0 <= vx w * vx w) by nra. assert (0 <= vy w * vy w) by nra. assert (0 <= vz w * vz w) by nra.
  set (m := Rmin (vx B) (Rmin (vy B) (vz B))). assert (Hm : 0 < m) by (unfold m; repeat apply Rmin_glb_lt; auto).
  assert (M1 : m <= vx B) by apply Rmin_l. assert (M2 : m <= vy B) by (eapply Rle_trans; [apply Rmin_r|apply Rmin_l]). assert (M3 : m <= vz B) by (eapply Rle_trans; [apply Rmin_r|apply Rmin_r]).
  apply Rlt_le_trans with (m * (vx w * vx w + vy w * vy w + vz w * vz w)); [nra|].
  assert (m * (vx w * vx w) <= vx B * (vx w * vx w)) by (apply Rmult_le_compat_r; auto).
  assert (m * (vy w * vy w) <= vy B * (vy w * vy w)) by (apply Rmult_le_compat_r; auto).
  assert (m * (vz w * vz w) <= vz B * (vz w * vz w)) by (apply Rmult_le_compat_r; auto). lra.
Qed.
(** the tensors of B and of 1/B are inverse to each other *)
Theorem C60_inverse A B : is_rotation A -> vx B <> 0 -> vy B <> 0 -> vz B <> 0 ->
  mmul (update_inertia_tensor A B) (update_inertia_tensor A (mkV (1 / vx B) (1 / vy B) (1 / vz B))) = mid /\
  mmul (update_inertia_tensor A (mkV (1 / vx B) (1 / vy B) (1 / vz B))) (update_inertia_tensor A B) = mid.
Proof.
  intros HR Hx Hy Hz. destruct (rotation_entries A HR) as (HT & _). destruct HR as [HR _].
  rewrite !tensor_eq. unfold world_tensor. set (B' := mkV (1 / vx B) (1 / vy B) (1 / vz B)).
  assert (D1 : mmul (mdiag B) (mdiag B') = mid). { unfold B', mdiag, mmul, mid; destruct B; cbn in *. f_equal; field; auto. }
  assert (D2 : mmul (mdiag B') (mdiag B) = mid). { unfold B', mdiag, mmul, mid; destruct B; cbn in *. f_equal; field; auto. }
  assert (G : forall X Y, mmul X Y = mid -> mmul (mmul (mmul A X) (mT A)) (mmul (mmul A Y) (mT A)) = mid).
  { intros X Y HXY. rewrite !mmul_assoc3. rewrite <- (mmul_assoc3 (mT A) A). rewrite HT, mmul_id_l. rewrite <- (mmul_assoc3 X Y), HXY, mmul_id_l. exact HR. }
  split; apply G; auto.
Qed.
Example C60_nonvacuous : is_rotation (q_to_matrix (mkQ 1 1 1 1)) /\ 0 < vx (mkV 1 2 3).
Proof. split; [apply q_to_matrix_rotation|cbn; lra]. Qed.

Lemma gen_impulse_eq P x : impulse P x = gen_impulse (pB P * pK P) (pJ P) x.
Proof. reflexivity. Qed.
Lemma indexed_bvh e e1 : Forall2 bvh_only (e_bodies e) (e_bodies e1) -> bodies_indexed e -> bodies_indexed e1.
Proof.
  intros H HI k b1 Hk1. destruct (nth_error (e_bodies e) k) as [b|] eqn:Hk.
  - destruct (Forall2_nth _ _ _ _ _ H Hk) as (b1' & Hk1' & [t ->]). assert (b1 = with_bvh b t) by congruence. subst. cbn. apply HI; auto.
  - apply nth_error_None in Hk. rewrite (Forall2_len _ _ _ H) in Hk. assert (k < length (e_bodies e1))%nat by (apply nth_error_Some; congruence). lia.
Qed.
Lemma total_linear_plus bs p q : total_linear bs (fun j => p j + q j) = vadd (total_linear bs p) (total_linear bs q).
Proof.
  unfold total_linear. induction (seq 0 (length bs)) as [|k l IH]; cbn [map vsum fold_right]; [unfold vadd, vzero; cbn; f_equal; ring|].
  unfold vsum in IH. rewrite IH, read3_plus. set (A := fold_right _ _ _). set (B := fold_right _ _ _). destruct (read3 p (6 * k)), (read3 q (6 * k)), A, B. unfold vadd; cbn. f_equal; ring.
Qed.
Lemma total_angular_plus bs p q : total_angular bs (fun j => p j + q j) = vadd (total_angular bs p) (total_angular bs q).
Proof.
  unfold total_angular. induction (combine (seq 0 (length bs)) bs) as [|[k b] l IH]; cbn [map vsum fold_right fst snd]; [unfold vadd, vzero; cbn; f_equal; ring|].
  unfold vsum in IH. rewrite IH, !read3_plus. set (A := fold_right _ _ _). set (B := fold_right _ _ _).
  destruct (read3 p (6 * k)), (read3 q (6 * k)), (read3 p (6 * k + 3)), (read3 q (6 * k + 3)), (b_r b), A, B. unfold vadd, vcross; cbn. f_equal; ring.
Qed.
Lemma total_zero bs : total_linear bs (fun _ => 0) = vzero /\ total_angular bs (fun _ => 0) = vzero.
Proof.
  split.
  - unfold total_linear. induction (seq 0 (length bs)) as [|k l IH]; cbn [map vsum fold_right]; [reflexivity|]. unfold vsum in IH. rewrite IH. unfold vadd, vzero, read3; cbn. f_equal; ring.
  - unfold total_angular. induction (combine (seq 0 (length bs)) bs) as [|[k b] l IH]; cbn [map vsum fold_right fst snd]; [reflexivity|].
    unfold vsum in IH. rewrite IH. destruct (b_r b). unfold vadd, vcross, vzero, read3; cbn. f_equal; ring.
Qed.
Lemma bvh_total bs bs' p : Forall2 bvh_only bs bs' -> total_linear bs' p = total_linear bs p /\ total_angular bs' p = total_angular bs p.
Proof.
  intros H. unfold total_linear, total_angular. rewrite (Forall2_len _ _ _ H). split; [reflexivity|]. f_equal.
  assert (G : forall m n, map (fun kb => vadd (vcross (b_r (snd kb)) (read3 p (6 * fst kb))) (read3 p (6 * fst kb + 3))) (combine (seq n m) bs') =
     map (fun kb => vadd (vcross (b_r (snd kb)) (read3 p (6 * fst kb))) (read3 p (6 * fst kb + 3))) (combine (seq n m) bs)); [|apply G].
  induction H as [|b b' l l' [t ->] H IH]; intros m n; destruct m; cbn [seq combine map]; try reflexivity. cbn [fst snd]. f_equal. apply IH.
Qed.
(** the impulses of one step carry no momentum, whatever the solver returned *)
Lemma step_impulse solver cd dt e e' t : cd_ok cd -> step_facts cd solver dt e e' t -> bodies_indexed e -> hinges_indexed e ->
  total_linear (e_bodies e) (total_impulse (t_pairs t)) = vzero /\ (anchors_meet e -> total_angular (e_bodies e) (total_impulse (t_pairs t)) = vzero).
Proof.
  intros Hcd HF HI HH. destruct HF as (_ & Hc & C1 & C2 & H1 & H2 & _). destruct (Hcd _ _ Hc) as (HB & EH & _).
  assert (HI1 := indexed_bvh _ _ HB HI). assert (HH1 : hinges_indexed (t_engine t)) by (unfold hinges_indexed; rewrite EH; auto).
  assert (HM : anchors_meet e -> anchors_meet (t_engine t)).
  { intros HA h sp sc P1 C1' Hh Es EP EC. rewrite EH in Hh.
    assert (FB : forall nm b1, find_body (t_engine t) nm = Some b1 -> exists b tr, find_body e nm = Some b /\ b1 = with_bvh b tr).
    { intros nm b1. unfold find_body. clear - HB. induction HB as [|b b' l l' [tr ->] H IH]; cbn; [discriminate|]. destruct (name_eqb (b_name b) nm); auto. intros E. exists b, tr. split; congruence. }
    destruct (FB _ _ EP) as (P & t1 & EP' & ->). destruct (FB _ _ EC) as (C & t2 & EC' & ->). apply (HA h sp sc P C); auto. }
  set (K := fun p : problem * vec => total_linear (e_bodies e) (impulse (fst p) (snd p)) = vzero /\ (anchors_meet e -> total_angular (e_bodies e) (impulse (fst p) (snd p)) = vzero)).
  assert (HK : Forall K (t_pairs t)).
  { apply Forall_forall. intros [P x] Hin. apply in_combine_l in Hin. unfold K; cbn [fst snd]. rewrite gen_impulse_eq. apply in_app_or in Hin as [Hin|Hin].
    - destruct (e_contacts (t_engine t)) as [|c0 cs] eqn:E0. { rewrite C1 in Hin by auto. destruct Hin. }
      destruct C2 as (P' & E1 & E2); [congruence|]. rewrite E2 in Hin. destruct Hin as [<-|[]].
      unfold contacts_initialize in E1. destruct (contact_jacobian (t_engine t)) as [J|] eqn:EJ; [|discriminate]. destruct (contact_error _ _ _ _); [|discriminate].
      destruct (restitution_vector _); [|discriminate]. destruct (friction_vector _); [|discriminate]. cbv zeta in E1. apply some_eq in E1. subst P'.
      cbn [contact_problem pB pK pJ]. destruct (C51_contacts _ _ x HI1 EJ) as [L A]. destruct (bvh_total _ _ (gen_impulse (4 * length (e_contacts (t_engine t))) J x) HB) as [BL BA]. rewrite <- BL, <- BA. auto.
    - destruct (e_hinges (t_engine t)) as [|c0 cs] eqn:E0. { rewrite H1 in Hin by auto. destruct Hin. }
      destruct H2 as (P' & E1 & E2); [congruence|]. rewrite E2 in Hin. destruct Hin as [<-|[]].
      unfold hinges_initialize in E1. destruct (hinge_jacobian (t_engine t)) as [J|] eqn:EJ; [|discriminate]. destruct (hinge_error _ _); [|discriminate].
      cbv zeta in E1. apply some_eq in E1. subst P'.
      cbn [pB pK pJ]. destruct (C51_hinges _ _ x HI1 HH1 EJ) as [L A]. destruct (bvh_total _ _ (gen_impulse (5 * length (e_hinges (t_engine t))) J x) HB) as [BL BA]. rewrite <- BL, <- BA. auto. }
  clear - HK. induction HK as [|[P x] l [L A] HK [IL IA]].
  - unfold total_impulse; cbn. destruct (total_zero (e_bodies e)). auto.
  - split; [|intros HM; specialize (A HM); specialize (IA HM)].
    + change (total_impulse ((P, x) :: l)) with (fun j => impulse P x j + total_impulse l j). rewrite total_linear_plus. cbn [fst snd] in L. rewrite L, IL. unfold vadd, vzero; cbn; f_equal; ring.
    + change (total_impulse ((P, x) :: l)) with (fun j => impulse P x j + total_impulse l j). rewrite total_angular_plus. cbn [fst snd] in A. rewrite A, IA. unfold vadd, vzero; cbn; f_equal; ring.
Qed.
Definition linear_momentum (b : body) : vec3 := vscale (b_mass b) (b_v b).
(** One step changes the total linear momentum exactly by dt times the total external force, whatever contacts are found
    and whatever the solver returns, if all bodies are free. *)
Theorem C51_step_linear solver cd dt e e' : cd_ok cd -> step_with solver cd dt e = Some e' -> bodies_indexed e -> hinges_indexed e ->
  (forall b, In b (e_bodies e) -> b_fixed b = false) ->
  vsum (map linear_momentum (e_bodies e')) = vadd (vsum (map linear_momentum (e_bodies e))) (vscale dt (vsum (map net_force (e_bodies e)))).
Proof.
  intros Hcd H HI HH Hfree. destruct (step_decompose _ _ _ _ _ Hcd H) as (t & HF).
  destruct (step_impulse _ _ _ _ _ _ Hcd HF HI HH) as [HL _].
  destruct (C49_fixed_step _ _ _ _ _ Hcd H) as [Hlen _].
  assert (HB : forall k b, nth_error (e_bodies e) k = Some b -> exists b', nth_error (e_bodies e') k = Some b' /\
     linear_momentum b' = vadd (vadd (linear_momentum b) (vscale dt (net_force b))) (read3 (total_impulse (t_pairs t)) (6 * k))).
  { intros k b Hk. destruct (step_body _ _ _ _ _ _ _ _ Hcd HF Hk) as (b' & Hk' & HS & _ & HD). exists b'. split; auto.
    destruct (HD (Hfree b (nth_error_In _ _ Hk))) as (Hm & _ & _ & _ & Ev & _). destruct HS as (_ & _ & Em & _).
    unfold linear_momentum. rewrite Em, Ev, ext_force_spec. cbn [fst]. generalize (read3 (total_impulse (t_pairs t)) (6 * k)) (net_force b) (b_v b).
    intros [a1 a2 a3] [f1 f2 f3] [v1 v2 v3]. unfold vscale, vadd; cbn. f_equal; field; auto. }
  assert (Z := HL). unfold total_linear in Z. revert HB Hlen. rewrite <- (vec3_eq (vadd (vadd (vsum (map linear_momentum (e_bodies e))) (vscale dt (vsum (map net_force (e_bodies e))))) vzero) (vadd (vsum (map linear_momentum (e_bodies e))) (vscale dt (vsum (map net_force (e_bodies e)))))); try (cbn; ring).
  rewrite <- Z. clear. intros HB Hlen.
  assert (G : forall bs bs' n, length bs' = length bs -> (forall k b, nth_error bs k = Some b -> exists b', nth_error bs' k = Some b' /\
     linear_momentum b' = vadd (vadd (linear_momentum b) (vscale dt (net_force b))) (read3 (total_impulse (t_pairs t)) (6 * (n + k)))) ->
     vsum (map linear_momentum bs') = vadd (vadd (vsum (map linear_momentum bs)) (vscale dt (vsum (map net_force bs)))) (vsum (map (fun k => read3 (total_impulse (t_pairs t)) (6 * k)) (seq n (length bs))))).
  { induction bs as [|b bs IH]; intros [|b' bs'] n HL H; try discriminate; cbn [map vsum fold_right length seq].
    - unfold vadd, vscale, vzero; cbn. f_equal; ring.
    - destruct (H 0%nat b eq_refl) as (b1 & E1 & E2). assert (b' = b1) by (cbn in E1; congruence). subst b1. rewrite E2, Nat.add_0_r.
      unfold vsum in IH. rewrite (IH bs' (S n)).
      + set (X := read3 _ _). set (A := fold_right _ _ _). set (B := fold_right _ _ _). set (C := fold_right _ _ _).
        clearbody X A B C. destruct (linear_momentum b), (net_force b), X, A, B, C. unfold vadd, vscale; cbn. f_equal; ring.
      + cbn in HL. lia.
      + intros k b2 Hk. destruct (H (S k) b2 Hk) as (b3 & E3 & E4). exists b3. split; auto. rewrite E4. replace (S n + k)%nat with (n + S k)%nat by lia. reflexivity. }
  apply (G (e_bodies e) (e_bodies e') 0%nat Hlen). intros k b Hk. destruct (HB k b Hk) as (b' & ? & ?). exists b'. auto.
Qed.
(** Angular momentum about the origin of a body that sits at [b]'s pose and moves with the velocities of [b'] *)
Definition angular_momentum (b b' : body) : vec3 :=
  vadd (vcross (b_r b) (linear_momentum b')) (mvec (world_tensor (q_to_matrix (b_q b)) (b_inertia b)) (b_w b')).

(** ... and the total angular momentum about the origin, taken at the poses before the step, by dt times the total torque,
    if moreover the two anchor points of every hinge coincide. *)
Theorem C51_step_angular solver cd dt e e' : cd_ok cd -> step_with solver cd dt e = Some e' -> bodies_indexed e -> hinges_indexed e -> anchors_meet e ->
  (forall b, In b (e_bodies e) -> b_fixed b = false) ->
  vsum (map (fun bb => angular_momentum (fst bb) (snd bb)) (combine (e_bodies e) (e_bodies e'))) =
  vadd (vsum (map (fun b => angular_momentum b b) (e_bodies e)))
       (vscale dt (vsum (map (fun b => vadd (vcross (b_r b) (net_force b)) (net_torque (world_tensor (q_to_matrix (b_q b)) (b_inertia b)) b)) (e_bodies e)))).
Proof.
  intros Hcd H HI HH HA Hfree. destruct (step_decompose _ _ _ _ _ Hcd H) as (t & HF).
  destruct (step_impulse _ _ _ _ _ _ Hcd HF HI HH) as [_ HL]. specialize (HL HA).
  destruct (C49_fixed_step _ _ _ _ _ Hcd H) as [Hlen _].
  set (p := total_impulse (t_pairs t)) in *.
  assert (HB : forall k b, nth_error (e_bodies e) k = Some b -> exists b', nth_error (e_bodies e') k = Some b' /\
     angular_momentum b b' = vadd (vadd (angular_momentum b b) (vscale dt (vadd (vcross (b_r b) (net_force b)) (net_torque (world_tensor (q_to_matrix (b_q b)) (b_inertia b)) b))))
        (vadd (vcross (b_r b) (read3 p (6 * k))) (read3 p (6 * k + 3)))).
  { intros k b Hk. destruct (step_body _ _ _ _ _ _ _ _ Hcd HF Hk) as (b' & Hk' & HS & _ & HD). exists b'. split; auto.
    destruct (HD (Hfree b (nth_error_In _ _ Hk))) as (Hm & Hx & Hy & Hz & Ev & Ew & _). destruct HS as (_ & _ & Em & _).
    unfold angular_momentum, linear_momentum. rewrite Em, Ev, Ew, ext_force_spec. cbn [fst snd]. fold p. rewrite <- tensor_eq.
    set (I := update_inertia_tensor (q_to_matrix (b_q b)) (b_inertia b)). unfold inv_inertia_world. set (I' := update_inertia_tensor _ (mkV _ _ _)).
    assert (II : mmul I I' = mid). { apply (C60_inverse (q_to_matrix (b_q b)) (b_inertia b)); auto. apply q_to_matrix_rotation. }
    set (T := net_torque I b). set (F := net_force b). generalize (read3 p (6 * k)) (read3 p (6 * k + 3)). intros P L.
    assert (E1 : mvec I (vadd (b_w b) (mvec I' (vadd (vscale dt T) L))) = vadd (mvec I (b_w b)) (vadd (vscale dt T) L)).
    { transitivity (vadd (mvec I (b_w b)) (mvec (mmul I I') (vadd (vscale dt T) L))).
      - generalize (vadd (vscale dt T) L). clearbody I I'. clear. intros z. destruct I, I', (b_w b), z. unfold mvec, mmul, vadd, vdot; cbn. f_equal; ring.
      - rewrite II. generalize (vadd (vscale dt T) L). intros [? ? ?]. f_equal. unfold mvec, mid, vdot; cbn. f_equal; ring. }
    rewrite E1. clearbody T F. generalize (mvec I (b_w b)). clear - Hm. intros Z. destruct Z, T, F, P, L, (b_r b), (b_v b). unfold vadd, vscale, vcross; cbn. f_equal; field; auto. }
  assert (Z := HL). unfold total_angular in Z.
  match goal with |- _ = ?X => rewrite <- (vec3_eq (vadd X vzero) X); try (cbn; ring) end.
  rewrite <- Z. revert HB Hlen. clear. intros HB Hlen.
  assert (G : forall bs bs' n, length bs' = length bs -> (forall k b, nth_error bs k = Some b -> exists b', nth_error bs' k = Some b' /\
     angular_momentum b b' = vadd (vadd (angular_momentum b b) (vscale dt (vadd (vcross (b_r b) (net_force b)) (net_torque (world_tensor (q_to_matrix (b_q b)) (b_inertia b)) b))))
        (vadd (vcross (b_r b) (read3 p (6 * (n + k)))) (read3 p (6 * (n + k) + 3)))) ->
     vsum (map (fun bb => angular_momentum (fst bb) (snd bb)) (combine bs bs')) =
     vadd (vadd (vsum (map (fun b => angular_momentum b b) bs))
       (vscale dt (vsum (map (fun b => vadd (vcross (b_r b) (net_force b)) (net_torque (world_tensor (q_to_matrix (b_q b)) (b_inertia b)) b)) bs))))
       (vsum (map (fun kb => vadd (vcross (b_r (snd kb)) (read3 p (6 * fst kb))) (read3 p (6 * fst kb + 3))) (combine (seq n (length bs)) bs)))).
  { induction bs as [|b bs IH]; intros [|b' bs'] n HL H; try discriminate; cbn [map vsum fold_right length seq combine fst snd].
    - unfold vadd, vscale, vzero; cbn. f_equal; ring.
    - destruct (H 0%nat b eq_refl) as (b1 & E1 & E2). assert (b' = b1) by (cbn in E1; congruence). subst b1. rewrite E2, Nat.add_0_r.
      unfold vsum in IH. rewrite (IH bs' (S n)).
      + set (X := vadd (vcross (b_r b) (read3 p (6 * n))) _). set (W := vadd (vcross (b_r b) (net_force b)) _). set (A := fold_right _ _ _). set (B := fold_right _ _ _). set (C := fold_right _ _ _).
        clearbody X A B C W. destruct (angular_momentum b b), W, X, A, B, C. unfold vadd, vscale; cbn. f_equal; ring.
      + cbn in HL. lia.
      + intros k b2 Hk. destruct (H (S k) b2 Hk) as (b3 & E3 & E4). exists b3. split; auto. rewrite E4. replace (S n + k)%nat with (n + S k)%nat by lia. reflexivity. }
  apply (G (e_bodies e) (e_bodies e') 0%nat Hlen). intros k b Hk. destruct (HB k b Hk) as (b' & ? & ?). exists b'. auto.
Qed.
Print Assumptions C52_contacts.
Print Assumptions C52_hinges.
Print Assumptions C52_hinge_axis.
Print Assumptions C51_contacts.
Print Assumptions C51_hinges.
Print Assumptions C60_tensor.
Print Assumptions C60_positive.
Print Assumptions C60_inverse.
Print Assumptions C51_step_linear.
Print Assumptions C51_step_angular.
