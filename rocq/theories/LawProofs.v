(** Fixed points of the sweeps are the solutions of the contact problem. *)
From Coq Require Import FunctionalExtensionality Permutation.
From Verif Require Import Base VecProofs ProxModel ProxSpec ProxProofs SolverModel SolverSpec SolverProofs LawSpec.
Open Scope R_scope.

Lemma signorini_fix r x a : 0 < r -> (Rmax 0 (x - r * a) = x <-> signorini x a).
Proof.
  intros Hr. unfold signorini. split.
  - intros H. unfold Rmax in H. destruct (Rle_dec 0 (x - r * a)) as [L|L].
    + assert (a = 0) by (apply Rmult_eq_reg_l with r; lra). subst a. rewrite Rmult_0_r in *. repeat split; lra.
    + subst x. assert (0 < a) by (apply Rmult_lt_reg_l with r; lra). repeat split; lra.
  - intros (Hx & Ha & Hxa). assert (Hz : x = 0 \/ a = 0) by (apply Rmult_integral; auto). destruct Hz as [-> | ->].
    + apply Rmax_left. assert (0 <= r * a) by (apply Rmult_le_pos; lra). lra.
    + rewrite Rmult_0_r, Rminus_0_r. apply Rmax_right. auto.
Qed.
Lemma sphere_fix mu xn f y : 0 <= mu -> 0 <= xn -> (prox_sphere (vsub f y) mu xn = f <-> dissipates_most mu xn f y).
Proof.
  intros Hm Hx. assert (Ex : Rmax xn 0 = xn) by (apply Rmax_left; auto).
  assert (HC : forall g, vdot (vsub (vsub f y) f) (vsub g f) = vdot f y - vdot g y).
  { intros g. destruct f, y, g. unfold vdot, vsub; cbn. ring. }
  split.
  - intros E. assert (HB := prox_sphere_in_ball (vsub f y) mu xn Hm). rewrite E, Ex in HB. split; [exact HB|].
    intros g Hg. assert (HA := prox_sphere_angle (vsub f y) mu xn g Hm). rewrite E, Ex in HA. specialize (HA Hg).
    rewrite HC in HA. lra.
  - intros [HB HA]. apply closest_unique with (S := ball (mu * Rmax xn 0)) (z := vsub f y).
    + apply closest_of_angle; [apply prox_sphere_in_ball; auto|]. intros q Hq. apply prox_sphere_angle; auto.
    + apply closest_of_angle; [rewrite Ex; exact HB|]. rewrite Ex. intros q Hq. rewrite HC. specialize (HA q Hq). lra.
Qed.

(** block k is left alone *)
Definition block_ok (P : problem) (r x : vec) (k : nat) : Prop := forall i, (i < pB P)%nat ->
  pprox P k (fun i => let j := (pB P * k + i)%nat in x j - r j * residual P x j) i = x (pB P * k + i)%nat.
Lemma set_block_same B k x v : (forall i, (i < B)%nat -> v i = x (B * k + i)%nat) -> set_block B k x v = x.
Proof.
  intros H. extensionality j. unfold set_block. destruct (in_block B k j) eqn:E; auto. apply in_block_spec in E.
  rewrite H by lia. f_equal. lia.
Qed.
Lemma set_block_inv B k x v : set_block B k x v = x -> forall i, (i < B)%nat -> v i = x (B * k + i)%nat.
Proof. intros H i Hi. rewrite <- H. rewrite set_block_in; auto. Qed.
Lemma gs_block_ok P r x k : gs_block P r x k = x <-> block_ok P r x k.
Proof.
  unfold gs_block, block_ok, residual. split.
  - intros H i Hi. apply (set_block_inv _ _ _ _ H i Hi).
  - intros H. apply set_block_same. exact H.
Qed.
Lemma gs_fold_other P r ks : forall x k i, (i < pB P)%nat -> ~ In k ks -> fold_left (gs_block P r) ks x (pB P * k + i)%nat = x (pB P * k + i)%nat.
Proof.
  induction ks as [|l ks IH]; intros x k i Hi Hn; cbn [fold_left]; auto. rewrite IH by (auto; intros F; apply Hn; right; auto).
  unfold gs_block. apply set_block_other; auto. intros ->. apply Hn. left; auto.
Qed.
Lemma gs_fold_fix P r ks : NoDup ks -> forall x,
  (forall k i, In k ks -> (i < pB P)%nat -> fold_left (gs_block P r) ks x (pB P * k + i)%nat = x (pB P * k + i)%nat) <->
  (forall k, In k ks -> block_ok P r x k).
Proof.
  induction ks as [|l ks IH]; intros Hnd x; [split; intros ? ? ; contradiction || (intros; contradiction)|].
  inversion Hnd as [|? ? Hl Hnd']; subst. cbn [fold_left]. split.
  - intros H. assert (E : gs_block P r x l = x).
    { unfold gs_block. apply set_block_same. intros i Hi. rewrite <- (H l i (or_introl eq_refl) Hi). rewrite gs_fold_other by auto.
      unfold gs_block at 1. rewrite set_block_in; auto. }
    rewrite E in H. intros k [<- | Hk]; [apply gs_block_ok; auto|]. revert k Hk. apply IH; auto. intros k i Hk. apply H. right; auto.
  - intros H. assert (E : gs_block P r x l = x) by (apply gs_block_ok; apply H; left; auto). rewrite E.
    intros k i [<- | Hk] Hi; [apply gs_fold_other; auto|]. revert k i Hk Hi. 
    assert (G := proj2 (IH Hnd' x)). intros k i Hk Hi. apply G; auto. intros k0 Hk0. apply H. right; auto.
Qed.
(** pointwise over the length = block by block *)
Lemma by_blocks B K (Q : nat -> Prop) : (0 < B)%nat -> (forall i, (i < B * K)%nat -> Q i) <-> (forall k i, (k < K)%nat -> (i < B)%nat -> Q (B * k + i)%nat).
Proof.
  intros HB. split.
  - intros H k i Hk Hi. apply H. nia.
  - intros H j Hj. destruct (block_of B j HB) as (l & i & Hi & ->). apply H; auto. nia.
Qed.
Lemma gs_stationary P r x : (0 < pB P)%nat -> (stationary (pB P * pK P) (gs_sweep P) r x <-> forall k, (k < pK P)%nat -> block_ok P r x k).
Proof.
  intros HB. unfold stationary. rewrite (by_blocks (pB P) (pK P) (fun i => gs_sweep P r x i = x i)) by auto.
  assert (E : gs_sweep P r x = fold_left (gs_block P r) (seq 0 (pK P)) x).
  { unfold gs_sweep. rewrite gs_fold by apply seq_lt. reflexivity. }
  rewrite E. assert (G := gs_fold_fix P r (seq 0 (pK P)) (seq_NoDup _ _) x).
  split.
  - intros H k Hk. apply (proj1 G); [|apply in_seq; lia]. intros k0 i Hk0 Hi. apply H; auto. apply in_seq in Hk0; lia.
  - intros H k i Hk Hi. apply (proj2 G); auto; [|apply in_seq; lia]. intros k0 Hk0. apply H. apply in_seq in Hk0; lia.
Qed.

(** ** the parallel Gauss-Seidel sweep *)
Definition zero_d (d : nat -> vec) : Prop := forall i j, d i j = 0.
Lemma pgs_step_fix P r w x d k : w = WJTx P x -> zero_d d -> block_ok P r x k ->
  fst (pgs_step P r w (x, d) k) = x /\ zero_d (snd (pgs_step P r w (x, d) k)).
Proof.
  intros -> Hd Hk. unfold pgs_step. assert (E : set_block (pB P) k x (pprox P k (z_block (pB P) (pN P) (pJ P) (pb P) r x (WJTx P x) k)) = x).
  { apply set_block_same. exact Hk. }
  cbn [fst snd]. rewrite E. split; auto. intros i j. destruct (Nat.eqb i k); [|apply Hd]. unfold delta_w. apply rsum_zero. intros; ring.
Qed.
Lemma pgs_step_x P r w x d k : fst (pgs_step P r w (x, d) k) = set_block (pB P) k x (pprox P k (z_block (pB P) (pN P) (pJ P) (pb P) r x w k)).
Proof. reflexivity. Qed.
Lemma pgs_steps_other P r w ks : forall xd k i, (i < pB P)%nat -> ~ In k ks -> fst (fold_left (pgs_step P r w) ks xd) (pB P * k + i)%nat = fst xd (pB P * k + i)%nat.
Proof.
  induction ks as [|l ks IH]; intros [x d] k i Hi Hn; cbn [fold_left]; auto. rewrite IH by (auto; intros F; apply Hn; right; auto).
  rewrite pgs_step_x. cbn [fst]. apply set_block_other; auto. intros ->. apply Hn. left; auto.
Qed.
Lemma pgs_steps_ok P r x ks : forall d, zero_d d -> (forall k, In k ks -> block_ok P r x k) ->
  fst (fold_left (pgs_step P r (WJTx P x)) ks (x, d)) = x /\ zero_d (snd (fold_left (pgs_step P r (WJTx P x)) ks (x, d))).
Proof.
  induction ks as [|l ks IH]; intros d Hd H; cbn [fold_left]; [split; auto|].
  destruct (pgs_step_fix P r (WJTx P x) x d l eq_refl Hd (H l (or_introl eq_refl))) as [E1 E2].
  destruct (pgs_step P r (WJTx P x) (x, d) l) as [x1 d1]. cbn [fst snd] in *. subst x1. apply IH; auto. intros k Hk. apply H. right; auto.
Qed.
Lemma pgs_steps_inv_fix P r x ks : NoDup ks -> forall d, zero_d d ->
  (forall k i, In k ks -> (i < pB P)%nat -> fst (fold_left (pgs_step P r (WJTx P x)) ks (x, d)) (pB P * k + i)%nat = x (pB P * k + i)%nat) ->
  forall k, In k ks -> block_ok P r x k.
Proof.
  induction ks as [|l ks IH]; intros Hnd d Hd H; [intros k []|]. inversion Hnd as [|? ? Hl Hnd']; subst. cbn [fold_left] in H.
  assert (B : block_ok P r x l).
  { intros i Hi. rewrite <- (H l i (or_introl eq_refl) Hi). rewrite pgs_steps_other by auto. rewrite pgs_step_x, set_block_in by auto. reflexivity. }
  destruct (pgs_step_fix P r (WJTx P x) x d l eq_refl Hd B) as [E1 E2].
  destruct (pgs_step P r (WJTx P x) (x, d) l) as [x1 d1]. cbn [fst snd] in *. subst x1.
  intros k [<- | Hk]; auto. apply (IH Hnd' d1 E2); auto. intros k0 i Hk0 Hi. apply H; auto. right; auto.
Qed.
Lemma zero_w P x d first : zero_d d -> (fun j => WJTx P x j + rsum first (fun i => d i j)) = WJTx P x.
Proof. intros H. extensionality j. rewrite rsum_zero by (intros; apply H). ring. Qed.
Lemma pgs_groups_other P order r w0 gs : (forall g, Permutation (order g) g) -> forall xd k i, (i < pB P)%nat -> ~ In k (concat gs) ->
  fst (fold_left (pgs_group P order r w0) gs xd) (pB P * k + i)%nat = fst xd (pB P * k + i)%nat.
Proof.
  intros Ho. induction gs as [|g gs IH]; intros xd k i Hi Hn; cbn [fold_left concat] in *; auto.
  rewrite IH by (auto; intros F; apply Hn; apply in_or_app; auto). destruct g as [|f g]; [reflexivity|]. cbn [pgs_group].
  apply pgs_steps_other; auto. intros F. apply Hn. apply in_or_app. left. apply (Permutation_in k (Ho (f :: g))). auto.
Qed.
Lemma pgs_groups_ok P order r x gs : (forall g, Permutation (order g) g) -> forall d, zero_d d -> (forall k, In k (concat gs) -> block_ok P r x k) ->
  fst (fold_left (pgs_group P order r (WJTx P x)) gs (x, d)) = x.
Proof.
  intros Ho. induction gs as [|g gs IH]; intros d Hd H; cbn [fold_left concat] in *; auto. destruct g as [|f g]; [apply IH; auto|].
  cbn [pgs_group snd]. rewrite zero_w by auto.
  destruct (pgs_steps_ok P r x (order (f :: g)) d Hd) as [E1 E2].
  { intros k Hk. apply H. apply in_or_app. left. apply (Permutation_in k (Ho (f :: g))). auto. }
  destruct (fold_left (pgs_step P r (WJTx P x)) (order (f :: g)) (x, d)) as [x1 d1]. cbn [fst snd] in *. subst x1. apply IH; auto.
  intros k Hk. apply H. apply in_or_app. right; auto.
Qed.
Lemma pgs_groups_fix P order r x gs : (forall g, Permutation (order g) g) -> NoDup (concat gs) -> forall d, zero_d d ->
  (forall k i, In k (concat gs) -> (i < pB P)%nat -> fst (fold_left (pgs_group P order r (WJTx P x)) gs (x, d)) (pB P * k + i)%nat = x (pB P * k + i)%nat) ->
  forall k, In k (concat gs) -> block_ok P r x k.
Proof.
  intros Ho. induction gs as [|g gs IH]; intros Hnd d Hd H; [intros k []|]. cbn [fold_left concat] in *.
  destruct g as [|f g]; [apply (IH Hnd d Hd); auto|].
  assert (Hg : NoDup (order (f :: g))). { apply (Permutation_NoDup (Permutation_sym (Ho (f :: g)))). apply NoDup_app_l in Hnd. auto. }
  assert (Hdis : forall k, In k (f :: g) -> ~ In k (concat gs)).
  { intros k H1 H2. revert Hnd H1 H2. generalize (concat gs) (f :: g). clear. intros l l'. induction l' as [|a l' IHl]; intros Hnd H1 H2; [contradiction|].
    cbn in Hnd. inversion Hnd as [|? ? Ha Hr]; subst. destruct H1 as [<- | H1]; [apply Ha; apply in_or_app; auto|auto]. }
  cbn [pgs_group snd] in H. rewrite zero_w in H by auto.
  assert (B : forall k, In k (f :: g) -> block_ok P r x k).
  { assert (G := pgs_steps_inv_fix P r x (order (f :: g)) Hg d Hd). intros k Hk. apply G.
    - intros k0 i Hk0 Hi. assert (Hk1 : In k0 (f :: g)) by (apply (Permutation_in k0 (Ho (f :: g))); auto).
      rewrite <- (H k0 i) by (auto; apply in_or_app; auto). symmetry. apply pgs_groups_other; auto.
    - apply (Permutation_in k (Permutation_sym (Ho (f :: g)))). auto. }
  destruct (pgs_steps_ok P r x (order (f :: g)) d Hd) as [E1 E2].
  { intros k Hk. apply B. apply (Permutation_in k (Ho (f :: g))). auto. }
  destruct (fold_left (pgs_step P r (WJTx P x)) (order (f :: g)) (x, d)) as [x1 d1]. cbn [fst snd] in *. subst x1.
  intros k Hk. apply in_app_or in Hk as [Hk|Hk]; auto. assert (Hnd2 : NoDup (concat gs)) by (revert Hnd; generalize (f :: g) (concat gs); clear; intros l l'; induction l as [|a l IHl]; cbn; auto; intros Q; inversion Q; auto). apply (IH Hnd2 d1 E2); auto.
  intros k0 i Hk0 Hi. apply H; auto. apply in_or_app; auto.
Qed.
Lemma pgs_stationary P order gs r x : (0 < pB P)%nat -> (forall g, Permutation (order g) g) -> Permutation (concat gs) (seq 0 (pK P)) ->
  (stationary (pB P * pK P) (pgs_sweep P order gs) r x <-> forall k, (k < pK P)%nat -> block_ok P r x k).
Proof.
  intros HB Ho Hp. unfold stationary. rewrite (by_blocks (pB P) (pK P) (fun i => pgs_sweep P order gs r x i = x i)) by auto.
  assert (Hin : forall k, In k (concat gs) <-> (k < pK P)%nat).
  { intros k. split; intros Hk.
    - apply (Permutation_in k Hp) in Hk. apply in_seq in Hk. lia.
    - apply (Permutation_in k (Permutation_sym Hp)). apply in_seq. lia. }
  assert (Hnd : NoDup (concat gs)) by (apply (Permutation_NoDup (Permutation_sym Hp)), seq_NoDup).
  unfold pgs_sweep. split.
  - intros H k Hk. apply (pgs_groups_fix P order r x gs Ho Hnd (fun _ => vzeros)); [intros ? ?; reflexivity| |apply Hin; auto].
    intros k0 i Hk0 Hi. apply H; auto. apply Hin; auto.
  - intros H k i Hk Hi. rewrite (pgs_groups_ok P order r x gs Ho (fun _ => vzeros)); auto; [intros ? ?; reflexivity|]. intros k0 Hk0. apply H, Hin; auto.
Qed.

(** ** contact blocks *)
Lemma contact_block_ok K N J WJT b mu r x k : (k < K)%nat -> (forall i, (i < 4 * K)%nat -> 0 < r i) -> 0 <= mu k ->
  let P := contact_problem K N J WJT b mu prox_sphere in
  (block_ok P r x k <-> signorini (normal_of x k) (normal_of (residual P x) k) /\
     dissipates_most (mu k) (normal_of x k) (friction_of x k) (vmul (friction_of r k) (friction_of (residual P x) k))).
Proof.
  intros Hk Hr Hm P. unfold block_ok. change (pB P) with 4%nat. change (pprox P k) with (contact_prox prox_sphere mu k).
  set (res := residual P x). set (z := fun i => let j := (4 * k + i)%nat in x j - r j * res j).
  assert (Z0 : z 0%nat = normal_of x k - r (4 * k)%nat * normal_of res k). { unfold z, normal_of. replace (4 * k + 0)%nat with (4 * k)%nat by lia. reflexivity. }
  assert (Zf : mkV (z 1%nat) (z 2%nat) (z 3%nat) = vsub (friction_of x k) (vmul (friction_of r k) (friction_of res k))) by reflexivity.
  assert (Hr0 : 0 < r (4 * k)%nat) by (apply Hr; lia).
  split.
  - intros H. assert (H0 := H 0%nat ltac:(lia)). assert (H1 := H 1%nat ltac:(lia)). assert (H2 := H 2%nat ltac:(lia)). assert (H3 := H 3%nat ltac:(lia)). clear H.
    unfold contact_prox in *. rewrite Z0 in *. replace (x (4 * k + 0)%nat) with (normal_of x k) in H0 by (unfold normal_of; f_equal; lia).
    assert (HS := proj1 (signorini_fix _ _ _ Hr0) H0). split; [exact HS|]. destruct HS as (HS & _).
    rewrite H0 in *. rewrite Zf in *. apply sphere_fix; auto. destruct (prox_sphere _ _ _) as [p1 p2 p3] eqn:EP. cbn [vx vy vz] in *. unfold friction_of. rewrite <- H1, <- H2, <- H3. reflexivity.
  - intros [HS HD]. assert (H0 := proj2 (signorini_fix _ _ _ Hr0) HS). destruct HS as (HS & _). apply sphere_fix in HD; auto.
    intros i Hi. unfold contact_prox. rewrite Zf, Z0, H0, HD. destruct i as [|[|[|[|i]]]]; try lia; try reflexivity. unfold normal_of. f_equal. lia.
Qed.
(** ** Jacobi *)
Definition jac_val (fs : vec3 -> R -> R -> vec3) (mu : vec) (hybrid : bool) (z x_old : vec) (k : nat) : vec :=
  let x_n := Rmax 0 (z (4 * k)%nat) in
  let f := fs (mkV (z (4 * k + 1)%nat) (z (4 * k + 2)%nat) (z (4 * k + 3)%nat)) (mu k) (if hybrid then x_n else x_old (4 * k)%nat) in
  fun i => match i with O => x_n | 1%nat => vx f | 2%nat => vy f | _ => vz f end.
Lemma jac_fold_in fs mu hy z xo ks : NoDup ks -> forall x k i, (i < 4)%nat -> In k ks ->
  fold_left (jacobi_step fs mu hy z xo) ks x (4 * k + i)%nat = jac_val fs mu hy z xo k i.
Proof.
  assert (O : forall ks x k i, (i < 4)%nat -> ~ In k ks -> fold_left (jacobi_step fs mu hy z xo) ks x (4 * k + i)%nat = x (4 * k + i)%nat).
  { induction ks0 as [|l ks0 IH]; intros x k i Hi Hn; cbn [fold_left]; auto. rewrite IH by (auto; intros F; apply Hn; right; auto).
    unfold jacobi_step. apply set_block_other; auto. intros ->. apply Hn. left; auto. }
  induction ks as [|l ks IH]; intros Hnd x k i Hi Hk; [contradiction|]. inversion Hnd as [|? ? Hl Hnd']; subst. cbn [fold_left].
  destruct Hk as [<- | Hk]; [|apply IH; auto]. rewrite O by auto. unfold jacobi_step. rewrite set_block_in by auto. reflexivity.
Qed.
Lemma jacobi_stationary K N J WJT b mu hy order r x : Permutation order (seq 0 K) -> (forall i, (i < 4 * K)%nat -> 0 < r i) -> (forall k, (k < K)%nat -> 0 <= mu k) ->
  let P := contact_problem K N J WJT b mu prox_sphere in
  (stationary (4 * K) (jacobi_sweep K N J WJT b mu prox_sphere hy order) r x <-> forall k, (k < K)%nat -> block_ok P r x k).
Proof.
  intros Hp Hr Hm P. unfold stationary. rewrite (by_blocks 4 K (fun i => jacobi_sweep K N J WJT b mu prox_sphere hy order r x i = x i)) by lia.
  assert (Hin : forall k, In k order <-> (k < K)%nat).
  { intros k. split; intros Hk.
    - apply (Permutation_in k Hp) in Hk. apply in_seq in Hk. lia.
    - apply (Permutation_in k (Permutation_sym Hp)). apply in_seq. lia. }
  assert (Hnd : NoDup order) by (apply (Permutation_NoDup (Permutation_sym Hp)), seq_NoDup).
  set (z := fun i => x i - r i * residual P x i).
  assert (E : forall k i, (k < K)%nat -> (i < 4)%nat -> jacobi_sweep K N J WJT b mu prox_sphere hy order r x (4 * k + i)%nat = jac_val prox_sphere mu hy z x k i).
  { intros k i Hk Hi. unfold jacobi_sweep. cbv zeta. apply jac_fold_in; auto. apply Hin; auto. }
  assert (V : forall k, (k < K)%nat -> (forall i, (i < 4)%nat -> jac_val prox_sphere mu hy z x k i = x (4 * k + i)%nat) <-> block_ok P r x k).
  { intros k Hk. unfold block_ok. change (pB P) with 4%nat. change (pprox P k) with (contact_prox prox_sphere mu k).
    set (zb := fun i => let j := (4 * k + i)%nat in x j - r j * residual P x j).
    assert (Z0 : zb 0%nat = z (4 * k)%nat). { unfold zb, z. cbv zeta. replace (4 * k + 0)%nat with (4 * k)%nat by lia. reflexivity. }
    assert (A0 : forall (Q : R -> Prop), Q (x (4 * k + 0)%nat) <-> Q (x (4 * k)%nat)) by (intros Q; replace (4 * k + 0)%nat with (4 * k)%nat by lia; tauto).
    assert (EE : Rmax 0 (z (4 * k)%nat) = x (4 * k)%nat -> forall i, (i < 4)%nat -> jac_val prox_sphere mu hy z x k i = contact_prox prox_sphere mu k zb i).
    { intros E0 i Hi. unfold jac_val, contact_prox. rewrite Z0. rewrite E0. destruct hy; reflexivity. }
    split; intros H.
    - assert (H0 := H 0%nat ltac:(lia)). cbn [jac_val] in H0. rewrite (A0 (fun t => Rmax 0 (z (4 * k)%nat) = t)) in H0. intros i Hi. rewrite <- EE by auto. apply H; auto.
    - assert (H0 := H 0%nat ltac:(lia)). unfold contact_prox in H0 at 1. rewrite Z0 in H0. rewrite (A0 (fun t => Rmax 0 (z (4 * k)%nat) = t)) in H0. intros i Hi. rewrite EE by auto. apply H; auto. }
  split.
  - intros H k Hk. apply V; auto. intros i Hi. rewrite <- E by auto. apply H; auto.
  - intros H k i Hk Hi. rewrite E by auto. apply V; auto.
Qed.
