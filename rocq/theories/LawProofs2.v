(** A sweep that changes little: the contact law holds up to the change. *)
From Coq Require Import FunctionalExtensionality Permutation.
From Verif Require Import Base VecProofs ProxModel ProxSpec ProxProofs SolverModel SolverSpec SolverProofs LawSpec LawProofs.
Open Scope R_scope.

Lemma Rabs_le_between a b : Rabs a <= b -> - b <= a <= b.
Proof. unfold Rabs. destruct (Rcase_abs a); lra. Qed.
Lemma Rabs_rsum n f : Rabs (rsum n f) <= rsum n (fun i => Rabs (f i)).
Proof. induction n as [|n IH]; cbn; [rewrite Rabs_R0; lra|]. eapply Rle_trans; [apply Rabs_triang|]. lra. Qed.
Lemma rsum_le n f g : (forall i, (i < n)%nat -> f i <= g i) -> rsum n f <= rsum n g.
Proof. induction n as [|n IH]; intros H; cbn; [lra|]. assert (f n <= g n) by (apply H; lia). assert (rsum n f <= rsum n g) by (apply IH; intros; apply H; lia). lra. Qed.
Lemma delassus_mat P x i : delassus P x i = rsum (pB P * pK P) (fun j => rsum (pN P) (fun l => pJ P i l * pWJT P l j) * x j).
Proof.
  unfold delassus, WJTx, mdotv. rewrite (rsum_ext _ _ (fun l => rsum (pB P * pK P) (fun j => pJ P i l * pWJT P l j * x j))).
  2:{ intros l _. rewrite <- rsum_scale. apply rsum_ext. intros; ring. }
  rewrite rsum_swap. apply rsum_ext. intros j _. rewrite Rmult_comm, <- rsum_scale. apply rsum_ext. intros; ring.
Qed.
Lemma residual_lip P x y d i : (forall j, (j < pB P * pK P)%nat -> Rabs (x j - y j) <= d) -> Rabs (residual P x i - residual P y i) <= d * row_sum P i.
Proof.
  intros H. unfold residual. replace (delassus P x i + pb P i - (delassus P y i + pb P i)) with (delassus P x i - delassus P y i) by ring.
  rewrite !delassus_mat, <- rsum_minus. eapply Rle_trans; [apply Rabs_rsum|]. unfold row_sum. rewrite <- rsum_scale. apply rsum_le. intros j Hj.
  set (a := rsum (pN P) _). replace (a * x j - a * y j) with (a * (x j - y j)) by ring. rewrite Rabs_mult. rewrite (Rmult_comm d). apply Rmult_le_compat_l; [apply Rabs_pos|auto].
Qed.
(** the iterate at which block k is updated *)
Lemma sweep_at P r x0 k i : local_prox (pB P) (pprox P) -> (k < pK P)%nat -> (i < pB P)%nat -> let xk := gs_spec P r (seq 0 k) x0 in
  gs_sweep P r x0 (pB P * k + i)%nat = pprox P k (fun i => let j := (pB P * k + i)%nat in x0 j - r j * residual P xk j) i.
Proof.
  intros HL Hk Hi xk. unfold xk.
  unfold gs_sweep. rewrite gs_fold by apply seq_lt. cbn [fst]. unfold gs_spec.
  replace (seq 0 (pK P)) with (seq 0 k ++ k :: seq (S k) (pK P - S k)).
  2:{ change (k :: seq (S k) (pK P - S k)) with (seq k (S (pK P - S k))). rewrite <- seq_app. f_equal. lia. }
  rewrite fold_left_app. cbn [fold_left]. rewrite gs_fold_other by (auto; intros F; apply in_seq in F; lia).
  unfold gs_block at 1. rewrite set_block_in by auto. apply HL; auto. intros m Hm. cbv zeta. unfold residual.
  rewrite gs_fold_other by (auto; intros F; apply in_seq in F; lia). reflexivity.
Qed.
Lemma sweep_mid P r x0 k j d : (0 < pB P)%nat -> (k <= pK P)%nat -> (j < pB P * pK P)%nat -> 0 <= d -> (forall j, (j < pB P * pK P)%nat -> Rabs (gs_sweep P r x0 j - x0 j) <= d) ->
  Rabs (gs_sweep P r x0 j - gs_spec P r (seq 0 k) x0 j) <= d.
Proof.
  intros HB Hk Hj Hd H. destruct (block_of (pB P) j HB) as (l & i & Hi & ->). destruct (Nat.lt_ge_cases l k) as [L|L].
  - replace (gs_sweep P r x0 (pB P * l + i)%nat) with (gs_spec P r (seq 0 k) x0 (pB P * l + i)%nat).
    + replace (_ - _) with 0 by ring. rewrite Rabs_R0. auto.
    + unfold gs_sweep. rewrite gs_fold by apply seq_lt. cbn [fst]. unfold gs_spec. replace (pK P) with (k + (pK P - k))%nat by lia. rewrite seq_app, fold_left_app. cbn [Nat.add].
      symmetry. apply gs_fold_other; auto. intros F; apply in_seq in F; lia.
  - unfold gs_spec. rewrite (gs_fold_other P r (seq 0 k) x0 l i Hi) by (intros F; apply in_seq in F; lia). apply H. auto.
Qed.
Lemma abs3 a b c : vnorm (mkV a b c) <= Rabs a + Rabs b + Rabs c.
Proof.
  apply Rsqr_incr_0_var. 2:{ assert (A := Rabs_pos a). assert (B := Rabs_pos b). assert (C := Rabs_pos c). lra. }
  unfold Rsqr. rewrite vnorm_sqr. unfold vdot; cbn. assert (A := Rabs_pos a). assert (B := Rabs_pos b). assert (C := Rabs_pos c).
  assert (A2 : Rabs a * Rabs a = a * a) by (rewrite <- Rabs_mult; apply Rabs_right; nra).
  assert (B2 : Rabs b * Rabs b = b * b) by (rewrite <- Rabs_mult; apply Rabs_right; nra).
  assert (C2 : Rabs c * Rabs c = c * c) by (rewrite <- Rabs_mult; apply Rabs_right; nra). rewrite <- A2, <- B2, <- C2. nra.
Qed.

Lemma sweep_upto K N J WJT b mu r x0 d : (forall i, (i < 4 * K)%nat -> 0 < r i) -> (forall k, (k < K)%nat -> 0 <= mu k) -> 0 <= d ->
  let P := contact_problem K N J WJT b mu prox_sphere in let x := gs_sweep P r x0 in
  (forall j, (j < 4 * K)%nat -> Rabs (x j - x0 j) <= d) ->
  contact_law_upto (fun i => d * (/ r i + row_sum P i)) (friction_of r) K mu x (residual P x).
Proof.
  intros Hr Hm Hd P x Hx k Hk. set (xk := gs_spec P r (seq 0 k) x0).
  assert (HL : local_prox (pB P) (pprox P)) by apply local_contact.
  assert (AT : forall i, (i < 4)%nat -> x (4 * k + i)%nat = contact_prox prox_sphere mu k (fun i => let j := (4 * k + i)%nat in x0 j - r j * residual P xk j) i).
  { intros i Hi. exact (sweep_at P r x0 k i HL Hk Hi). }
  assert (RD : forall i, Rabs (residual P x i - residual P xk i) <= d * row_sum P i).
  { intros i. apply residual_lip. intros j Hj. apply (sweep_mid P r x0 k j d); auto; [cbn; lia|cbn; lia]. }
  set (rho := residual P xk) in *. set (res := residual P x) in *.
  set (z := fun i => let j := (4 * k + i)%nat in x0 j - r j * rho j) in *.
  assert (A0 := AT 0%nat ltac:(lia)). replace (4 * k + 0)%nat with (4 * k)%nat in A0 by lia. unfold contact_prox in A0.
  assert (Z0 : z 0%nat = x0 (4 * k)%nat - r (4 * k)%nat * rho (4 * k)%nat). { unfold z. replace (4 * k + 0)%nat with (4 * k)%nat by lia. reflexivity. } rewrite Z0 in A0.
  assert (R0 := RD (4 * k)%nat). assert (X0 := Hx (4 * k)%nat ltac:(lia)). assert (P0 := Hr (4 * k)%nat ltac:(lia)).
  assert (RR : forall q, (q < 4 * K)%nat -> d * (/ r q + row_sum P q) = d / r q + d * row_sum P q) by (intros q _; unfold Rdiv; ring).
  assert (FR : forall t, x (4 * k)%nat = Rmax 0 t -> 0 <= x (4 * k)%nat) by (intros t ->; apply Rmax_l).
  assert (Nn : 0 <= normal_of x k) by (unfold normal_of; rewrite A0; apply Rmax_l).
  unfold normal_of in *. rewrite RR by lia. split; [exact Nn|].
  assert (DI : forall a, Rabs a <= d -> - (d / r (4 * k)%nat) <= a / r (4 * k)%nat <= d / r (4 * k)%nat).
  { intros a Ha. apply Rabs_le_between in Ha. unfold Rdiv. assert (0 < / r (4 * k)%nat) by (apply Rinv_0_lt_compat; auto). split; [|apply Rmult_le_compat_r; lra].
    rewrite <- Ropp_mult_distr_l_reverse. apply Rmult_le_compat_r; lra. }
  apply Rabs_le_between in R0.
  split; [|split].
  - assert (L : x0 (4 * k)%nat - r (4 * k)%nat * rho (4 * k)%nat <= x (4 * k)%nat) by (rewrite A0; apply Rmax_r).
    assert (G : (x0 (4 * k)%nat - x (4 * k)%nat) / r (4 * k)%nat <= rho (4 * k)%nat).
    { apply Rmult_le_reg_l with (r (4 * k)%nat); auto. unfold Rdiv. rewrite (Rmult_comm (x0 _ - _)), <- Rmult_assoc, Rinv_r by lra. lra. }
    rewrite Rabs_minus_sym in X0. apply DI in X0. lra.
  - intros Hp. assert (E : rho (4 * k)%nat = (x0 (4 * k)%nat - x (4 * k)%nat) / r (4 * k)%nat).
    { unfold Rmax in A0. destruct (Rle_dec 0 (x0 (4 * k)%nat - r (4 * k)%nat * rho (4 * k)%nat)); [|lra]. rewrite A0. field. lra. }
    rewrite Rabs_minus_sym in X0. apply DI in X0. rewrite <- E in X0. apply Rabs_le. lra.
  - (* friction *)
    assert (A1 := AT 1%nat ltac:(lia)). assert (A2 := AT 2%nat ltac:(lia)). assert (A3 := AT 3%nat ltac:(lia)). unfold contact_prox in A1, A2, A3.
    rewrite Z0, <- A0 in A1, A2, A3. set (zf := mkV (z 1%nat) (z 2%nat) (z 3%nat)) in *.
    assert (EF : friction_of x k = prox_sphere zf (mu k) (x (4 * k)%nat)). { unfold friction_of. rewrite A1, A2, A3. destruct (prox_sphere zf (mu k) (x (4 * k)%nat)); reflexivity. }
    assert (Ex : Rmax (x (4 * k)%nat) 0 = x (4 * k)%nat) by (apply Rmax_left; auto).
    assert (HB := prox_sphere_in_ball zf (mu k) (x (4 * k)%nat) (Hm k Hk)). rewrite <- EF, Ex in HB. split; [exact HB|].
    intros g Hg. assert (HA := prox_sphere_angle zf (mu k) (x (4 * k)%nat) g (Hm k Hk)). rewrite <- EF, Ex in HA. specialize (HA Hg).
    (* zf = x0_f - r rho_f *)
    assert (X1 := Hx (4 * k + 1)%nat ltac:(lia)). assert (X2 := Hx (4 * k + 2)%nat ltac:(lia)). assert (X3 := Hx (4 * k + 3)%nat ltac:(lia)).
    assert (R1 := RD (4 * k + 1)%nat). assert (R2 := RD (4 * k + 2)%nat). assert (R3 := RD (4 * k + 3)%nat).
    assert (P1 := Hr (4 * k + 1)%nat ltac:(lia)). assert (P2 := Hr (4 * k + 2)%nat ltac:(lia)). assert (P3 := Hr (4 * k + 3)%nat ltac:(lia)).
    set (f := friction_of x k) in *.
    set (w := mkV (x0 (4 * k + 1)%nat - x (4 * k + 1)%nat - r (4 * k + 1)%nat * (rho (4 * k + 1)%nat - res (4 * k + 1)%nat))
                  (x0 (4 * k + 2)%nat - x (4 * k + 2)%nat - r (4 * k + 2)%nat * (rho (4 * k + 2)%nat - res (4 * k + 2)%nat))
                  (x0 (4 * k + 3)%nat - x (4 * k + 3)%nat - r (4 * k + 3)%nat * (rho (4 * k + 3)%nat - res (4 * k + 3)%nat))).
    assert (EW : vsub zf f = vsub w (vmul (friction_of r k) (friction_of res k))).
    { unfold zf, f, w, z, friction_of, vsub, vmul; cbn [vx vy vz]. f_equal; ring. }
    rewrite EW in HA.
    assert (C := cauchy w (vsub f g)).
    assert (BW : vnorm w <= vdot (vmul (friction_of r k) (friction_of (fun i => d * (/ r i + row_sum P i)) k)) (mkV 1 1 1)).
    { eapply Rle_trans; [apply abs3|]. assert (T : forall q, (q < 4 * K)%nat -> 0 < r q -> Rabs (x q - x0 q) <= d -> Rabs (res q - rho q) <= d * row_sum P q ->
        Rabs (x0 q - x q - r q * (rho q - res q)) <= r q * (d * (/ r q + row_sum P q))).
      { intros q _ Hq H1 H2. replace (x0 q - x q - r q * (rho q - res q)) with (- (x q - x0 q) + r q * (res q - rho q)) by ring. eapply Rle_trans; [apply Rabs_triang|].
        rewrite Rabs_Ropp, Rabs_mult, (Rabs_right (r q)) by lra. replace (r q * (d * (/ r q + row_sum P q))) with (d + r q * (d * row_sum P q)) by (field; lra).
        apply Rplus_le_compat; auto. apply Rmult_le_compat_l; lra. }
      assert (T1 := T (4 * k + 1)%nat ltac:(lia) P1 X1 R1). assert (T2 := T (4 * k + 2)%nat ltac:(lia) P2 X2 R2). assert (T3 := T (4 * k + 3)%nat ltac:(lia) P3 X3 R3).
      unfold vdot, vmul, friction_of; cbn [vx vy vz]. lra. }
    assert (HN : 0 <= vnorm (vsub f g)) by apply vnorm_nonneg.
    assert (M : vnorm w * vnorm (vsub f g) <= vdot (vmul (friction_of r k) (friction_of (fun i => d * (/ r i + row_sum P i)) k)) (mkV 1 1 1) * vnorm (vsub f g)) by (apply Rmult_le_compat_r; auto).
    assert (I : vdot (vsub w (vmul (friction_of r k) (friction_of res k))) (vsub g f) =
       vdot f (vmul (friction_of r k) (friction_of res k)) - vdot g (vmul (friction_of r k) (friction_of res k)) - vdot w (vsub f g)).
    { generalize (vmul (friction_of r k) (friction_of res k)). intros [a1 a2 a3]. destruct w, f, g. unfold vdot, vsub; cbn. ring. }
    rewrite I in HA. lra.
Qed.

(** what the rigid body solver returns, when it stops because of the absolute tolerance *)
Definition swept (S : sparams) (P : problem) (p : pstate) : Prop :=
  ps_sweep p = gs_sweep P /\ ps_n p = Nat.pred (pB P * pK P) /\ ps_x p = ps_sol p /\
  (exists c, 0 < c /\ ps_r p = fun i => c * initial_r 1 (pN P) (pJ P) (pWJT P) i) /\
  forall m, ps_last p = Some m -> exists c x0, 0 < c /\ ps_sol p = gs_sweep P (fun i => c * initial_r 1 (pN P) (pJ P) (pWJT P) i) x0 /\ m = ninf (ps_n p) (fun i => ps_sol p i - x0 i).
Lemma swept_init S P : swept S P (ps_init P).
Proof.
  unfold swept, ps_init; cbn. repeat split; auto. { exists 1. split; [lra|]. extensionality i. ring. } discriminate.
Qed.
Lemma swept_step S P p : 0 < sp_nu_reduce S -> 0 < sp_nu_increase S -> swept S P p -> swept S P (fst (ps_step S p)) /\ ps_last (fst (ps_step S p)) = Some (snd (ps_step S p)).
Proof.
  intros H1 H2 (E1 & E2 & E3 & (c & Hc & Er) & HL). unfold ps_step. destruct (worse _ (ps_last p)) eqn:W; cbn [fst snd].
  - split.
    + unfold swept; cbn. rewrite Er. split; [auto|]. split; [auto|]. split; [auto|]. split.
      * exists (sp_nu_reduce S * c). split; [apply Rmult_lt_0_compat; auto|]. extensionality i. ring.
      * exact HL.
    + destruct (ps_last p); [reflexivity|discriminate].
  - split; [|reflexivity]. unfold swept; cbn. split; [auto|]. split; [auto|]. split; [auto|]. split.
    + rewrite Er. destruct (slow _ _ _); [|exists c; auto]. exists (sp_nu_increase S * c). split; [apply Rmult_lt_0_compat; auto|]. extensionality i. ring.
    + intros m Hm. exists c, (ps_sol p). rewrite E1, Er, E3 in *. split; [auto|]. split; [auto|]. congruence.
Qed.
Lemma swept_loop S Ps : 0 < sp_nu_reduce S -> 0 < sp_nu_increase S -> forall fuel gl ps, Forall2 (swept S) Ps ps ->
  let '(res, code, out) := rigid_loop S fuel gl ps in Forall2 (swept S) Ps out /\ (code = 1%nat -> Forall (fun p => exists m, ps_last p = Some m /\ m < sp_abs S) out).
Proof.
  intros H1 H2. induction fuel as [|fuel IH]; intros gl ps HF; cbn [rigid_loop]; [split; [auto|discriminate]|].
  set (stepped := map (ps_step S) ps). fold (gmax stepped 0). set (ps' := map fst stepped).
  assert (HF' : Forall2 (swept S) Ps ps').
  { unfold ps', stepped. clear - HF H1 H2. induction HF; cbn; constructor; auto. apply swept_step; auto. }
  destruct (Rltb_spec (gmax stepped 0) (sp_abs S)) as [L|L].
  - split; auto. intros _. apply Forall_forall. intros q Hq. unfold ps' in Hq. apply in_map_iff in Hq as (pv & <- & Hpv).
    destruct (gmax_ge stepped 0) as [_ GF]. rewrite Forall_forall in GF. specialize (GF _ Hpv). unfold stepped in Hpv. apply in_map_iff in Hpv as (p & <- & Hp).
    exists (snd (ps_step S p)). split; [|cbn in *; lra].
    assert (exists P, swept S P p) as [P HP]. { clear - HF Hp. induction HF; cbn in Hp; [contradiction|]. destruct Hp as [<- | Hp]; eauto. }
    apply (swept_step S P p H1 H2 HP).
  - destruct (rel_conv _ _ _); [split; [auto|discriminate]|]. specialize (IH (Some (gmax stepped 0)) ps' HF').
    destruct (rigid_loop S fuel (Some (gmax stepped 0)) ps') as [[res code] out]. exact IH.
Qed.
