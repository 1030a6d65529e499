From Coq Require Import FunctionalExtensionality Permutation.
From Verif Require Import Base ProxModel ProxSpec ProxProofs SolverModel SolverSpec.
Open Scope R_scope.

(** ** sums *)
Lemma rsum_ext n f g : (forall i, (i < n)%nat -> f i = g i) -> rsum n f = rsum n g.
Proof. induction n; cbn; intros H; auto. rewrite IHn, H; auto. Qed.
Lemma rsum_add a b f : rsum (a + b) f = rsum a f + rsum b (fun i => f (a + i)%nat).
Proof. induction b; cbn. - rewrite Nat.add_0_r. lra. - rewrite Nat.add_succ_r; cbn. rewrite IHb. lra. Qed.
Lemma rsum_plus n f g : rsum n (fun i => f i + g i) = rsum n f + rsum n g.
Proof. induction n; cbn; lra. Qed.
Lemma rsum_minus n f g : rsum n (fun i => f i - g i) = rsum n f - rsum n g.
Proof. induction n; cbn; lra. Qed.
Lemma rsum_scale n c f : rsum n (fun i => c * f i) = c * rsum n f.
Proof. induction n; cbn; lra. Qed.
Lemma rsum_zero n f : (forall i, (i < n)%nat -> f i = 0) -> rsum n f = 0.
Proof. induction n; cbn; intros H; auto. rewrite IHn, H; auto; lra. Qed.
Lemma rsum_swap n m f : rsum n (fun i => rsum m (fun j => f i j)) = rsum m (fun j => rsum n (fun i => f i j)).
Proof.
  induction n; cbn.
  - symmetry. apply rsum_zero. auto.
  - rewrite IHn. rewrite <- rsum_plus. reflexivity.
Qed.
Lemma rsum_nonneg n f : (forall i, (i < n)%nat -> 0 <= f i) -> 0 <= rsum n f.
Proof. induction n; cbn; intros H; [lra|]. specialize (IHn ltac:(auto)). specialize (H n ltac:(lia)). lra. Qed.

(** ** blocks *)
Lemma in_block_spec B k j : in_block B k j = true <-> (B * k <= j < B * k + B)%nat.
Proof. unfold in_block. rewrite andb_true_iff, Nat.leb_le, Nat.ltb_lt. tauto. Qed.
Lemma set_block_in B k x v i : (i < B)%nat -> set_block B k x v (B * k + i)%nat = v i.
Proof.
  intro H. unfold set_block. replace (in_block B k (B*k+i)) with true by (symmetry; apply in_block_spec; lia).
  f_equal. lia.
Qed.
Lemma set_block_out B k x v j : in_block B k j = false -> set_block B k x v j = x j.
Proof. intro H. unfold set_block. rewrite H. reflexivity. Qed.
Lemma in_block_other B k k' i : (i < B)%nat -> k <> k' -> in_block B k (B * k' + i) = false.
Proof.
  intros H N. destruct (in_block B k (B*k'+i)) eqn:E; auto. exfalso. apply in_block_spec in E.
  destruct (Nat.lt_total k k') as [L|[L|L]]; [|auto|].
  - assert (B * (k+1) <= B * k')%nat by (apply Nat.mul_le_mono_l; lia). lia.
  - assert (B * (k'+1) <= B * k)%nat by (apply Nat.mul_le_mono_l; lia). lia.
Qed.
Lemma set_block_other B k k' x v i : (i < B)%nat -> k <> k' -> set_block B k x v (B*k'+i)%nat = x (B*k'+i)%nat.
Proof. intros. apply set_block_out, in_block_other; auto. Qed.

(** a sum over all rows when only block k changes *)
Lemma rsum_block B K k f g : (k < K)%nat -> (forall j, in_block B k j = false -> f j = g j) ->
  rsum (B*K) f = rsum (B*K) g + rsum B (fun i => f (B*k+i)%nat - g (B*k+i)%nat).
Proof.
  intros Hk H. replace (B*K)%nat with (B*k + (B + B*(K-k-1)))%nat.
  2: { replace K with (k + 1 + (K-k-1))%nat at 2 by lia. lia. }
  rewrite !rsum_add.
  rewrite (rsum_ext (B*k) f g).
  2: { intros i Hi. apply H. destruct (in_block B k i) eqn:E; auto. apply in_block_spec in E. lia. }
  rewrite (rsum_ext (B*(K-k-1)) (fun i => f (B*k + (B+i))%nat) (fun i => g (B*k + (B+i))%nat)).
  2: { intros i Hi. apply H. destruct (in_block B k (B*k+(B+i))) eqn:E; auto. apply in_block_spec in E. lia. }
  rewrite rsum_minus. lra.
Qed.

Lemma WJTx_block P k x v : (k < pK P)%nat ->
  (fun j => WJTx P x j + delta_w (pB P) (pWJT P) k (set_block (pB P) k x v) x j) = WJTx P (set_block (pB P) k x v).
Proof.
  intro Hk. extensionality j. unfold WJTx, mdotv, delta_w.
  rewrite (rsum_block (pB P) (pK P) k (fun j0 => pWJT P j j0 * set_block (pB P) k x v j0) (fun j0 => pWJT P j j0 * x j0)); auto.
  - f_equal. apply rsum_ext. intros i Hi. ring.
  - intros i Hi. rewrite set_block_out; auto.
Qed.

Lemma gs_fold P r ks : Forall (fun k => (k < pK P)%nat) ks -> forall x,
  fold_left (gs_step P r) ks (x, WJTx P x) = (gs_spec P r ks x, WJTx P (gs_spec P r ks x)).
Proof.
  induction 1 as [|k ks Hk Hks IH]; intro x; [reflexivity|].
  cbn [fold_left gs_spec]. unfold gs_step at 2. rewrite WJTx_block by auto.
  change (set_block (pB P) k x (pprox P k (z_block (pB P) (pN P) (pJ P) (pb P) r x (WJTx P x) k)))
    with (gs_block P r x k).
  rewrite IH. reflexivity.
Qed.
Lemma seq_lt K : Forall (fun k => (k < K)%nat) (seq 0 K).
Proof. apply Forall_forall. intros k Hk. apply in_seq in Hk. lia. Qed.

(** ** cone *)
Section Cone.
Variables (mu : vec) (K : nat).
Definition cone_at (x : vec) (k : nat) : Prop := in_cone (mu k) (normal_of x k) (friction_of x k).
Lemma fold_cone (step : vec -> nat -> vec) :
  (forall x k, (k < K)%nat -> exists v, step x k = set_block 4 k x v /\ in_cone (mu k) (v 0%nat) (mkV (v 1%nat) (v 2%nat) (v 3%nat))) ->
  forall ks, Forall (fun k => (k < K)%nat) ks -> forall x k, (In k ks \/ cone_at x k) -> cone_at (fold_left step ks x) k.
Proof.
  intros Hs. induction 1 as [|k0 ks Hk0 Hks IH]; intros x k C; cbn.
  - destruct C as [[]|C]; auto.
  - apply IH. destruct (Hs x k0 Hk0) as [v [E Hv]]. destruct (Nat.eq_dec k0 k) as [->|N].
    + right. rewrite E. unfold cone_at, normal_of, friction_of.
      rewrite !set_block_in by lia. replace (4*k)%nat with (4*k+0)%nat by lia. rewrite set_block_in by lia. auto.
    + destruct C as [[C|C]|C]; [congruence|left; auto|right]. rewrite E.
      unfold cone_at, normal_of, friction_of in *. rewrite !set_block_other by (auto; lia).
      replace (4*k)%nat with (4*k+0)%nat by lia. rewrite set_block_other by (auto; lia).
      replace (4*k+0)%nat with (4*k)%nat by lia. auto.
Qed.
End Cone.

Definition cone_op (fs : vec3 -> R -> R -> vec3) : Prop :=
  forall z m x_n, 0 <= m -> 0 <= x_n -> vnorm (fs z m x_n) <= m * x_n.
Lemma cone_op_sphere : cone_op prox_sphere.
Proof.
  intros z m x_n Hm Hx. pose proof (prox_sphere_in_ball z m x_n Hm) as B. unfold ball in B.
  rewrite Rmax_left in B by lra. auto.
Qed.
Lemma cone_op_origin : cone_op prox_origin.
Proof.
  intros z m x_n Hm Hx. unfold prox_origin. replace (vnorm vzero) with 0; [nra|].
  symmetry. apply vnorm_zero_iff. reflexivity.
Qed.

Lemma eta3 v : mkV (vx v) (vy v) (vz v) = v. Proof. destruct v; reflexivity. Qed.

Lemma contact_prox_cone fs mu k z : cone_op fs -> 0 <= mu k ->
  in_cone (mu k) (contact_prox fs mu k z 0%nat) (mkV (contact_prox fs mu k z 1%nat) (contact_prox fs mu k z 2%nat) (contact_prox fs mu k z 3%nat)).
Proof.
  intros F Hm. unfold contact_prox, in_cone. split; [apply Rmax_l|].
  rewrite eta3. apply F; auto. apply Rmax_l.
Qed.

(** ** the control loop *)
Lemma loop_inv (Q : vec -> Prop) sweep n S : (forall r x, Q x -> Q (sweep r x)) ->
  forall fuel it x sol r last, Q x -> Q sol -> Q (fst (solve_loop sweep n S fuel it x sol r last)).
Proof.
  intros Hs. induction fuel as [|fuel IH]; intros it x sol r last Hx Hsol; cbn; auto.
  destruct (Rltb _ _); cbn; auto. destruct (rel_conv _ _ _); cbn; auto. destruct (worse _ _).
  - destruct (solve_loop _ _ _ fuel _ sol sol _ _) as [out st] eqn:E; cbn.
    apply (f_equal fst) in E; cbn in E; subst out. apply IH; auto.
  - match goal with |- context [solve_loop ?a ?b ?c fuel ?d ?x1 ?x1 ?r' ?l] =>
      destruct (solve_loop a b c fuel d x1 x1 r' l) as [out st] eqn:E end. cbn.
    apply (f_equal fst) in E; cbn in E; subst out. apply IH; auto.
Qed.
Lemma solve_inv (Q : vec -> Prop) sweep len S r0 out st : (forall r x, Q x -> Q (sweep r x)) -> Q vzeros ->
  solve sweep len S r0 = Some (out, st) -> Q out.
Proof.
  intros Hs H0. unfold solve. destruct len; [destruct (sp_max_iter S); [|discriminate]|]; intro E.
  - injection E as <- <-. auto.
  - assert (E' : solve_loop sweep len S (sp_max_iter S) 0 vzeros vzeros r0 None = (out, st)) by congruence.
    apply (f_equal fst) in E'. cbn in E'. subst out. apply loop_inv; auto.
Qed.

Definition lastx (s : vec) (h : list entry) : vec := fold_left (fun s e => if it_reject e then s else it_x e) h s.
Definition lastm (m : option R) (h : list entry) : option R :=
  fold_left (fun s e => if it_reject e then s else Some (it_merit e)) h m.

Definition next_r (S : sparams) (e : entry) (last : option R) : vec :=
  if it_reject e then (fun i => sp_nu_reduce S * it_r e i)
  else if slow (sp_small S) (it_merit e) last then (fun i => sp_nu_increase S * it_r e i) else it_r e.

Section Loop.
Variables (sweep : vec -> vec -> vec) (n : nat) (S : sparams).
(** what the loop guarantees, relative to its start *)
Record loop_ok (fuel it : nat) (sol r : vec) (last : option R) (out : vec) (st : sstats) : Prop := {
  lo_start : forall h1 e h2, st_hist st = h1 ++ e :: h2 ->
    it_x e = sweep (it_r e) (lastx sol h1) /\
    it_merit e = ninf n (fun i => it_x e i - lastx sol h1 i);
  lo_reject : forall h1 e h2, st_hist st = h1 ++ e :: h2 -> (length h1 + it < st_iterations st)%nat ->
    it_reject e = worse (it_merit e) (lastm last h1) /\
    sp_abs S <= it_merit e /\ rel_conv (sp_rel S) (it_merit e) (lastm last h1) = false;
  lo_out : out = lastx sol (firstn (st_iterations st - it) (st_hist st));
  lo_exit :
    (st_exitcode st = 0%nat /\ st_iterations st = sp_max_iter S /\ length (st_hist st) = fuel) \/
    (exists h e, st_hist st = h ++ [e] /\ (length h + it = st_iterations st)%nat /\ (length h < fuel)%nat /\
      ((st_exitcode st = 1%nat /\ it_merit e < sp_abs S) \/
       (st_exitcode st = 2%nat /\ rel_conv (sp_rel S) (it_merit e) (lastm last h) = true)));
  lo_r0 : forall e h, st_hist st = e :: h -> it_r e = r;
  lo_r : forall h1 e e' h2, st_hist st = h1 ++ e :: e' :: h2 -> it_r e' = next_r S e (lastm last h1) }.

Lemma loop_spec : forall fuel it sol r last out st, (fuel + it = sp_max_iter S)%nat ->
  solve_loop sweep n S fuel it sol sol r last = (out, st) -> loop_ok fuel it sol r last out st.
Proof.
  assert (Term : forall fuel it sol r last code, (Datatypes.S fuel + it = sp_max_iter S)%nat ->
    let x1 := sweep r sol in let m := ninf n (fun i => x1 i - sol i) in
    ((code = 1%nat /\ m < sp_abs S) \/ (code = 2%nat /\ rel_conv (sp_rel S) m last = true)) ->
    loop_ok (Datatypes.S fuel) it sol r last sol (mkStats [mkEntry r x1 m false] it code)).
  { intros fuel it sol r last code F x1 m C. split; cbn.
    - intros h1 e h2 E. destruct h1 as [|? [|]]; cbn in E; try discriminate. assert (e = mkEntry r x1 m false) by congruence. subst e; cbn. split; reflexivity.
    - intros; lia.
    - rewrite Nat.sub_diag. reflexivity.
    - right. exists [], (mkEntry r x1 m false). cbn. repeat split; auto; lia.
    - intros e h E. assert (e = mkEntry r x1 m false) by congruence. subst; reflexivity.
    - intros h1 e e' h2 E. destruct h1 as [|? [|]]; cbn in E; discriminate. }
  assert (Step : forall fuel it sol r last rej sol' r' last' out st, (Datatypes.S fuel + it = sp_max_iter S)%nat ->
    let x1 := sweep r sol in let m := ninf n (fun i => x1 i - sol i) in
    let e0 := mkEntry r x1 m rej in
    ~ m < sp_abs S -> rel_conv (sp_rel S) m last = false ->
    rej = worse m last -> sol' = (if rej then sol else x1) -> last' = (if rej then last else Some m) ->
    r' = next_r S e0 last ->
    loop_ok fuel (Datatypes.S it) sol' r' last' out st ->
    loop_ok (Datatypes.S fuel) it sol r last out (cons_stats e0 st)).
  { intros fuel it sol r last rej sol' r' last' out st F x1 m e0 A Rc Hrej Hsol' Hlast' Hr' [H1 H2 H3 H4 H5 H6].
    assert (LX : forall h, lastx sol (e0 :: h) = lastx sol' h) by (intro h; rewrite Hsol'; reflexivity).
    assert (LM : forall h, lastm last (e0 :: h) = lastm last' h) by (intro h; rewrite Hlast'; reflexivity).
    assert (IT : (it < st_iterations st)%nat).
    { destruct H4 as [[_ [E _]]|[h [e [_ [E _]]]]]; lia. }
    split; cbn [cons_stats st_hist st_iterations st_exitcode].
    - intros h1 e h2 E. destruct h1 as [|e1 h1]; cbn in E.
      + assert (e = e0) by congruence. subst e. split; reflexivity.
      + assert (e1 = e0) by congruence. subst e1. rewrite LX. apply H1 with h2. congruence.
    - intros h1 e h2 E L. destruct h1 as [|e1 h1]; cbn in E.
      + assert (e = e0) by congruence. subst e. cbn. split; auto. split; [lra|auto].
      + assert (e1 = e0) by congruence. subst e1. rewrite LM. apply H2 with h2; [congruence|cbn in L; lia].
    - replace (st_iterations st - it)%nat with (Datatypes.S (st_iterations st - Datatypes.S it)) by lia.
      cbn [firstn]. rewrite LX. exact H3.
    - destruct H4 as [[C1 [C2 C3]]|[h [e [C1 [C2 [C3 C4]]]]]].
      + left. cbn. auto.
      + right. exists (e0 :: h), e. rewrite C1. cbn [app length]. rewrite LM. repeat split; auto; lia.
    - intros e h E. assert (e = e0) by congruence. subst. reflexivity.
    - intros h1 e e' h2 E. destruct h1 as [|e1 h1]; cbn in E.
      + assert (e = e0) by congruence. subst e. rewrite (H5 e' h2) by congruence. exact Hr'.
      + assert (e1 = e0) by congruence. subst e1. rewrite LM. apply H6 with h2. congruence. }
  induction fuel as [|fuel IH]; intros it sol r last out st F E; cbn [solve_loop] in E.
  - assert (out = sol) by congruence. assert (st = mkStats [] (sp_max_iter S) 0) by congruence. subst. split; cbn.
    + intros h1 e h2 E'. destruct h1; discriminate.
    + intros h1 e h2 E'. destruct h1; discriminate.
    + rewrite firstn_nil. reflexivity.
    + left. auto.
    + intros; discriminate.
    + intros h1 e e' h2 E'. destruct h1; discriminate.
  - set (x1 := sweep r sol) in *. set (m := ninf n (fun i => x1 i - sol i)) in *.
    destruct (Rltb_spec m (sp_abs S)) as [A|A].
    { replace out with sol by congruence. replace st with (mkStats [mkEntry r x1 m false] it 1) by congruence.
      apply Term; auto. }
    destruct (rel_conv (sp_rel S) m last) eqn:Rc.
    { replace out with sol by congruence. replace st with (mkStats [mkEntry r x1 m false] it 2) by congruence.
      apply Term; auto. }
    destruct (worse m last) eqn:W.
    + match type of E with (let '(_, _) := ?t in _) = _ => destruct t as [out' st'] eqn:E' end.
      replace out with out' by congruence. replace st with (cons_stats (mkEntry r x1 m true) st') by congruence.
      eapply Step with (sol' := sol) (last' := last); eauto; apply IH; [lia|exact E'].
    + match type of E with (let '(_, _) := ?t in _) = _ => destruct t as [out' st'] eqn:E' end.
      replace out with out' by congruence. replace st with (cons_stats (mkEntry r x1 m false) st') by congruence.
      eapply Step with (sol' := x1) (last' := Some m); eauto. apply IH; [lia|]. exact E'.
Qed.
End Loop.

Lemma ninf_ok n v : is_max_abs (Datatypes.S n) v (ninf n v).
Proof.
  induction n as [|n [[i [Hi Ei]] IH2]]; cbn [ninf].
  - split; [exists 0%nat; split; [lia|reflexivity]|]. intros i Hi. replace i with 0%nat by lia. lra.
  - split.
    + unfold Rmax. destruct (Rle_dec _ _); [exists (Datatypes.S n); split; [lia|reflexivity]|exists i; split; [lia|auto]].
    + intros j Hj. destruct (Nat.eq_dec j (Datatypes.S n)) as [->|N]; [apply Rmax_r|].
      eapply Rle_trans; [apply IH2; lia|apply Rmax_l].
Qed.
Lemma ninf_nonneg n v : 0 <= ninf n v.
Proof. destruct (ninf_ok n v) as [[i [_ ->]] _]. apply Rabs_pos. Qed.

(** along accepted iterates the merit does not increase *)
Lemma lastm_mono m0 : forall h, (forall h1 e h2, h = h1 ++ e :: h2 -> it_reject e = false -> worse (it_merit e) (lastm (Some m0) h1) = false) ->
  exists m, lastm (Some m0) h = Some m /\ m <= m0.
Proof.
  intro h. revert m0. induction h as [|e h IH]; intros m0 H.
  - exists m0. split; [reflexivity|lra].
  - unfold lastm; cbn [fold_left]. destruct (it_reject e) eqn:Re.
    + apply IH. intros h1 e' h2 E R. specialize (H (e :: h1) e' h2 ltac:(rewrite E; reflexivity) R).
      unfold lastm in H; cbn in H. rewrite Re in H. exact H.
    + pose proof (H [] e h eq_refl Re) as W. cbn in W. apply Rltb_false in W.
      destruct (IH (it_merit e)) as [m [E L]].
      * intros h1 e' h2 E R. specialize (H (e :: h1) e' h2 ltac:(rewrite E; reflexivity) R).
        unfold lastm in H; cbn in H. rewrite Re in H. exact H.
      * exists m. split; [exact E|lra].
Qed.

(** ** the rigid solver *)
Definition ps_inv (p : pstate) : Prop := ps_x p = ps_sol p /\ (forall l, ps_last p = Some l -> 0 <= l).
Lemma ps_step_ok S p : ps_inv p ->
  let p' := fst (ps_step S p) in let v := snd (ps_step S p) in
  ps_inv p' /\ ps_last p' = Some v /\ 0 <= v /\ (forall l, ps_last p = Some l -> v <= l) /\
  ps_sweep p' = ps_sweep p /\ ps_n p' = ps_n p /\
  (ps_sol p' = ps_sol p \/ ps_sol p' = ps_sweep p (ps_r p) (ps_sol p)).
Proof.
  intros [I1 I2]. unfold ps_step. set (x1 := ps_sweep p (ps_r p) (ps_x p)).
  set (m := ninf _ _). destruct (worse m (ps_last p)) eqn:W; cbn.
  - destruct (ps_last p) as [l|] eqn:L; [|discriminate]. cbn.
    repeat split; auto.
    + intros l' E. assert (l = l') by congruence. lra.
  - assert (M : 0 <= m) by apply ninf_nonneg. repeat split; auto.
    + intros l' E. cbn in E. assert (m = l') by congruence. lra.
    + intros l E. rewrite E in W. cbn in W. apply Rltb_false in W. auto.
    + right. unfold x1. rewrite I1. reflexivity.
Qed.
Lemma ps_step_r S p : 0 < sp_nu_reduce S -> 0 < sp_nu_increase S -> (forall i, 0 < ps_r p i) ->
  forall i, 0 < ps_r (fst (ps_step S p)) i.
Proof.
  intros H1 H2 H i. unfold ps_step. destruct (worse _ _); cbn; [apply Rmult_lt_0_compat; auto|].
  destruct (slow _ _ _); [apply Rmult_lt_0_compat; auto|auto].
Qed.

Definition gmax (l : list (pstate * R)) (a : R) : R := fold_left (fun g p => Rmax g (snd p)) l a.
Lemma gmax_le l a b : a <= b -> Forall (fun p => snd p <= b) l -> gmax l a <= b.
Proof.
  revert a. induction l as [|p l IH]; cbn; intros a H F; auto.
  inversion F; subst. apply IH; auto. apply Rmax_lub; auto.
Qed.
Lemma gmax_ge l : forall a, a <= gmax l a /\ Forall (fun p => snd p <= gmax l a) l.
Proof.
  induction l as [|p l IH]; cbn; intro a; [split; [lra|constructor]|].
  destruct (IH (Rmax a (snd p))) as [A B]. unfold gmax in *. split.
  - eapply Rle_trans; [apply Rmax_l|apply A].
  - constructor; auto. eapply Rle_trans; [apply Rmax_r|apply A].
Qed.

Lemma rigid_loop_ok S : forall fuel glast ps,
  Forall ps_inv ps ->
  (forall g, glast = Some g -> 0 <= g /\ Forall (fun p => exists l, ps_last p = Some l /\ l <= g) ps) ->
  let '(res, code, out) := rigid_loop S fuel glast ps in
  (length res <= fuel)%nat /\
  (forall g r0 res', glast = Some g -> res = r0 :: res' -> r0 <= g) /\
  (forall l1 a b l2, res = l1 ++ a :: b :: l2 -> b <= a) /\
  ((code = 0%nat /\ length res = fuel) \/
   (code = 1%nat /\ exists l a, res = l ++ [a] /\ a < sp_abs S) \/
   (code = 2%nat /\ exists l a b, (res = l ++ [b; a] \/ (res = [a] /\ glast = Some b)) /\ Rabs (a - b) < sp_rel S * b)) /\
  Forall ps_inv out /\ map ps_sweep out = map ps_sweep ps.
Proof.
  induction fuel as [|fuel IH]; intros glast ps Hinv Hg; cbn [rigid_loop].
  - repeat split; auto; try (intros; discriminate).
    intros l1 a b l2 E. destruct l1; discriminate.
  - set (stepped := map (ps_step S) ps). set (ps' := map fst stepped). fold (gmax stepped 0). set (gm := gmax stepped 0).
    assert (Hinv' : Forall ps_inv ps').
    { unfold ps', stepped. rewrite map_map. apply Forall_map. eapply Forall_impl; [|exact Hinv].
      intros p Hp. apply (ps_step_ok S p Hp). }
    assert (Hsw : map ps_sweep ps' = map ps_sweep ps).
    { unfold ps', stepped. rewrite !map_map. apply map_ext_in. intros p Hp.
      rewrite Forall_forall in Hinv. apply (ps_step_ok S p (Hinv p Hp)). }
    assert (Gle : forall g, glast = Some g -> gm <= g).
    { intros g E. destruct (Hg g E) as [G0 F]. apply gmax_le; auto. unfold stepped. apply Forall_map.
      rewrite Forall_forall in *. intros p Hp. destruct (F p Hp) as [l [El Ll]].
      destruct (ps_step_ok S p (Hinv p Hp)) as (_ & _ & _ & M & _). specialize (M l El). cbn in *. lra. }
    assert (Gnext : 0 <= gm /\ Forall (fun p => exists l, ps_last p = Some l /\ l <= gm) ps').
    { destruct (gmax_ge stepped 0) as [G0 F]. split; auto. unfold ps'. apply Forall_map.
      rewrite Forall_forall in *. intros q Hq. exists (snd q). split; [|apply F; auto].
      unfold stepped in Hq. apply in_map_iff in Hq as [p [<- Hp]].
      apply (ps_step_ok S p (Hinv p Hp)). }
    destruct (Rltb_spec gm (sp_abs S)) as [A|A].
    { repeat split; auto; cbn; try lia.
      - intros g r0 res' E E'. assert (r0 = gm) by congruence. subst. auto.
      - intros l1 a b l2 E. destruct l1 as [|? [|]]; discriminate.
      - right; left. split; auto. exists [], gm. auto. }
    destruct (rel_conv (sp_rel S) gm glast) eqn:Rc.
    { repeat split; auto; cbn; try lia.
      - intros g r0 res' E E'. assert (r0 = gm) by congruence. subst. auto.
      - intros l1 a b l2 E. destruct l1 as [|? [|]]; discriminate.
      - right; right. split; auto. destruct glast as [b|]; [|discriminate]. cbn in Rc. apply Rltb_true in Rc.
        exists [], gm, b. auto. }
    specialize (IH (Some gm) ps' Hinv').
    destruct (rigid_loop S fuel (Some gm) ps') as [[res code] out].
    destruct IH as (I1 & I2 & I3 & I4 & I5 & I6).
    { intros g E. assert (gm = g) by congruence. subst g. auto. }
    repeat split; auto; cbn; try lia.
    + intros g r0 res' E E'. assert (r0 = gm) by congruence. subst. auto.
    + intros l1 a b l2 E. destruct l1 as [|c l1]; cbn in E.
      * assert (a = gm) by congruence. subst a. apply (I2 gm b l2); congruence.
      * eapply I3 with (l1 := l1) (l2 := l2). congruence.
    + destruct I4 as [[-> E]|[[-> [l [a [-> L]]]]|[-> [l [a [b [E L]]]]]]].
      * left. split; auto.
      * right; left. split; auto. exists (gm :: l), a. auto.
      * right; right. split; auto. destruct E as [-> |[-> E]].
        -- exists (gm :: l), a, b. auto.
        -- exists [], a, b. assert (gm = b) by congruence. subst. auto.
    + congruence.
Qed.

Lemma rigid_loop_Q (Q : pstate -> Prop) S : (forall p, Q p -> Q (fst (ps_step S p))) ->
  forall fuel glast ps, Forall Q ps -> Forall Q (snd (rigid_loop S fuel glast ps)).
Proof.
  intros HQ. induction fuel as [|fuel IH]; intros glast ps F; cbn [rigid_loop]; auto.
  assert (F' : Forall Q (map fst (map (ps_step S) ps))).
  { rewrite map_map. apply Forall_map. eapply Forall_impl; [|exact F]. auto. }
  destruct (Rltb _ _); auto. destruct (rel_conv _ _ _); auto.
  match goal with |- context [rigid_loop S fuel ?g ?p] => specialize (IH g p F'); destruct (rigid_loop S fuel g p) as [[res code] out] end.
  exact IH.
Qed.

(** ** colour groups *)
(** a block solver reads and writes only its own block *)
Definition local_prox (B : nat) (prox : nat -> vec -> vec) : Prop :=
  forall k z z', (forall i, (i < B)%nat -> z i = z' i) -> forall i, (i < B)%nat -> prox k z i = prox k z' i.
Lemma local_contact fs mu : local_prox 4 (contact_prox fs mu).
Proof.
  intros k z z' H i Hi. unfold contact_prox. rewrite !H by lia. reflexivity.
Qed.
Lemma local_post : local_prox 4 post_prox.
Proof. intros k z z' H i Hi. unfold post_prox. rewrite !H by lia. reflexivity. Qed.
Lemma local_hinge : local_prox 5 hinge_prox.
Proof. intros k z z' H i Hi. unfold hinge_prox. auto. Qed.

Definition pstep (P : problem) (r w x : vec) (k : nat) : vec :=
  set_block (pB P) k x (pprox P k (z_block (pB P) (pN P) (pJ P) (pb P) r x w k)).
Lemma pgs_fold_x P r w ks : forall x d, fst (fold_left (pgs_step P r w) ks (x, d)) = fold_left (pstep P r w) ks x.
Proof. induction ks as [|k ks IH]; intros x d; cbn; auto. Qed.

Lemma pfold_other P r w ks : forall x l i, (i < pB P)%nat -> ~ In l ks ->
  fold_left (pstep P r w) ks x (pB P * l + i)%nat = x (pB P * l + i)%nat.
Proof.
  induction ks as [|k ks IH]; intros x l i Hi N; cbn; auto.
  rewrite IH; auto; [|intro; apply N; right; auto]. unfold pstep. apply set_block_other; auto.
  intros ->. apply N. left; auto.
Qed.
Lemma pfold_in P r w ks : local_prox (pB P) (pprox P) -> NoDup ks -> forall x l i, (i < pB P)%nat -> In l ks ->
  fold_left (pstep P r w) ks x (pB P * l + i)%nat = pprox P l (z_block (pB P) (pN P) (pJ P) (pb P) r x w l) i.
Proof.
  intros Hl. induction 1 as [|k ks Hk Hnd IH]; intros x l i Hi I; cbn; [destruct I|].
  destruct (Nat.eq_dec k l) as [->|N].
  - rewrite pfold_other; auto. unfold pstep. apply set_block_in; auto.
  - destruct I as [I|I]; [congruence|]. rewrite IH; auto. apply Hl; auto.
    intros j Hj. unfold z_block, pstep. rewrite set_block_other; auto.
Qed.
(** every index is in a block, if blocks are not empty *)
Lemma block_of B j : (0 < B)%nat -> exists l i, (i < B)%nat /\ j = (B * l + i)%nat.
Proof.
  intro H. exists (j / B)%nat, (j mod B)%nat. split; [apply Nat.mod_upper_bound; lia|]. apply Nat.div_mod; lia.
Qed.
Lemma pfold_perm P r w ks ks' x : (0 < pB P)%nat -> local_prox (pB P) (pprox P) -> NoDup ks -> Permutation ks ks' ->
  fold_left (pstep P r w) ks x = fold_left (pstep P r w) ks' x.
Proof.
  intros HB Hl Hn Hp. extensionality j. destruct (block_of (pB P) j HB) as (l & i & Hi & ->).
  destruct (in_dec Nat.eq_dec l ks) as [I|I].
  - rewrite !pfold_in; auto; [eapply Permutation_NoDup; eauto|eapply Permutation_in; eauto].
  - rewrite !pfold_other; auto. intro I'. apply I. eapply Permutation_in; [apply Permutation_sym|]; eauto.
Qed.

(** two blocks are uncoupled: J_k W J_l^T = 0 *)
Definition uncoupled (P : problem) (k l : nat) : Prop :=
  forall i i', (i < pB P)%nat -> (i' < pB P)%nat ->
    rsum (pN P) (fun j => pJ P (pB P * k + i)%nat j * pWJT P j (pB P * l + i')%nat) = 0.

Lemma J_delta P k l x' x i : uncoupled P k l -> (i < pB P)%nat ->
  rsum (pN P) (fun j => pJ P (pB P * k + i)%nat j * delta_w (pB P) (pWJT P) l x' x j) = 0.
Proof.
  intros U Hi. unfold delta_w.
  rewrite (rsum_ext _ _ (fun j => rsum (pB P) (fun i' => (x' (pB P * l + i')%nat - x (pB P * l + i')%nat) * (pJ P (pB P * k + i)%nat j * pWJT P j (pB P * l + i')%nat)))).
  2: { intros j Hj. rewrite <- rsum_scale. apply rsum_ext. intros; ring. }
  rewrite rsum_swap. apply rsum_zero. intros i' Hi'. rewrite rsum_scale. rewrite U; auto. ring.
Qed.

Lemma mdotv_plus n M u v i : mdotv n M (fun j => u j + v j) i = mdotv n M u i + mdotv n M v i.
Proof. unfold mdotv. rewrite <- rsum_plus. apply rsum_ext. intros; ring. Qed.

(** in a set of pairwise uncoupled blocks, sequential Gauss-Seidel = simultaneous update *)
Lemma gs_group P r ks : local_prox (pB P) (pprox P) -> Forall (fun k => (k < pK P)%nat) ks ->
  forall w x,
  (forall k, In k ks -> forall i, (i < pB P)%nat -> mdotv (pN P) (pJ P) w (pB P * k + i)%nat = mdotv (pN P) (pJ P) (WJTx P x) (pB P * k + i)%nat) ->
  NoDup ks ->
  (forall k l, In k ks -> In l ks -> k <> l -> uncoupled P k l) ->
  fold_left (pstep P r w) ks x = gs_spec P r ks x.
Proof.
  intros Hl. induction 1 as [|k ks Hk Hks IH]; intros w x Hw Hn Hu; [reflexivity|].
  inversion Hn as [|? ? Nk Hn']; subst.
  assert (E : pstep P r w x k = gs_block P r x k).
  { unfold pstep, gs_block. extensionality j. unfold set_block. destruct (in_block (pB P) k j) eqn:Ib; auto.
    apply in_block_spec in Ib. apply Hl; [|lia]. intros i Hi. unfold z_block, delassus. cbn zeta.
    rewrite Hw; auto. left; auto. }
  cbn [fold_left gs_spec]. rewrite E. apply IH; auto.
  - intros k' Hk' i Hi. rewrite Hw; [|right; auto|auto]. unfold gs_block.
    rewrite <- WJTx_block by auto. rewrite mdotv_plus.
    set (x' := set_block _ _ _ _). unfold mdotv at 3. rewrite J_delta; auto; [lra|].
    apply Hu; [right; auto|left; auto|]. intros ->. auto.
  - intros k' l' H1 H2. apply Hu; right; auto.
Qed.

(** ** the whole parallel sweep *)
(** invariant carried across groups *)
Definition pgs_inv (P : problem) (w0 : vec) (done : list nat) (xd : vec * (nat -> vec)) : Prop :=
  (forall j, WJTx P (fst xd) j = w0 j + rsum (pK P) (fun i => snd xd i j)) /\
  (forall i, ~ In i done -> snd xd i = vzeros) /\
  (forall i, exists x' x, snd xd i = delta_w (pB P) (pWJT P) i x' x).

Lemma rsum_upd K k (f g : nat -> R) : (k < K)%nat -> (forall i, i <> k -> f i = g i) -> rsum K f = rsum K g + (f k - g k).
Proof.
  intros Hk H. induction K as [|K IH]; [lia|]. cbn. destruct (Nat.eq_dec k K) as [->|N].
  - rewrite (rsum_ext K f g); [lra|]. intros i Hi. apply H. lia.
  - rewrite IH by lia. rewrite (H K) by auto. lra.
Qed.

Lemma pgs_steps_inv P r w w0 ks : Forall (fun k => (k < pK P)%nat) ks -> NoDup ks -> forall done xd,
  (forall k, In k ks -> ~ In k done) -> pgs_inv P w0 done xd ->
  pgs_inv P w0 (ks ++ done) (fold_left (pgs_step P r w) ks xd).
Proof.
  induction 1 as [|k ks Hk Hks IH]; intros Hn done xd Hd Hi; [exact Hi|].
  inversion Hn as [|? ? Nk Hn']; subst. cbn [fold_left].
  assert (I' : pgs_inv P w0 (k :: done) (pgs_step P r w xd k)).
  { destruct xd as [x d]. destruct Hi as (I1 & I2 & I3). cbn [fst snd] in *. unfold pgs_step. cbn [fst snd].
    set (v := pprox P k _). split; [|split]; cbn [fst snd].
    - intro j. rewrite <- WJTx_block by auto. rewrite I1.
      rewrite (rsum_upd (pK P) k (fun i => (if Nat.eqb i k then delta_w (pB P) (pWJT P) k (set_block (pB P) k x v) x else d i) j) (fun i => d i j)); auto.
      + rewrite Nat.eqb_refl. rewrite (I2 k (Hd k (or_introl eq_refl))). unfold vzeros. lra.
      + intros i Hne. apply Nat.eqb_neq in Hne. rewrite Hne. reflexivity.
    - intros i Hin. destruct (Nat.eqb_spec i k) as [->|Hne]; [exfalso; apply Hin; left; auto|].
      apply I2. intro; apply Hin; right; auto.
    - intro i. destruct (Nat.eqb_spec i k) as [->|Hne]; [|apply I3]. exists (set_block (pB P) k x v), x. reflexivity. }
  destruct (IH Hn' (k :: done) (pgs_step P r w xd k)) as (J1 & J2 & J3); auto.
  - intros k' H1 [H2|H2]; [subst; auto|]. apply (Hd k'); [right; auto|auto].
  - split; [|split]; auto. intros i Hin. apply J2. intro H. apply Hin. apply in_app_iff in H.
    destruct H as [H|[H|H]]; [right; apply in_app_iff; left; auto|left; auto|right; apply in_app_iff; right; auto].
Qed.

(** the schedule condition under which no earlier update is forgotten: a block processed in an
    earlier group whose index is not below the group's first index must be uncoupled from the
    group's blocks *)
Fixpoint groups_ok (P : problem) (done : list nat) (groups : list (list nat)) : Prop :=
  match groups with
  | [] => True
  | g :: gs =>
    (forall l k, In l done -> In k g -> (hd 0%nat g <= l)%nat -> uncoupled P k l) /\
    (forall k l, In k g -> In l g -> k <> l -> uncoupled P k l) /\
    groups_ok P (g ++ done) gs
  end.

Lemma rsum_split_le n m f : (m <= n)%nat -> rsum n f = rsum m f + rsum (n - m) (fun i => f (m + i)%nat).
Proof. intro H. replace n with (m + (n - m))%nat at 1 by lia. apply rsum_add. Qed.

Lemma groups_ok_perm P groups : forall d1 d2, (forall l, In l d2 -> In l d1) -> groups_ok P d1 groups -> groups_ok P d2 groups.
Proof.
  induction groups as [|g gs IH]; intros d1 d2 H G; cbn in *; auto.
  destruct G as (A & B & C). split; [|split]; auto.
  apply IH with (g ++ d1); auto. intros l Hl. apply in_app_iff in Hl. apply in_app_iff. destruct Hl; auto.
Qed.

Lemma NoDup_app_l {A} (l l' : list A) : NoDup (l ++ l') -> NoDup l.
Proof.
  induction l as [|a l IH]; cbn; intro H; [constructor|]. inversion H; subst. constructor; auto.
  intro I. apply H2. apply in_app_iff. auto.
Qed.
Lemma pgs_groups P order r w0 : (0 < pB P)%nat -> local_prox (pB P) (pprox P) -> (forall g, Permutation (order g) g) ->
  forall groups done xd,
  Forall (fun g => g <> []) groups ->
  Forall (fun k => (k < pK P)%nat) (concat groups) -> NoDup (concat groups ++ done) ->
  groups_ok P done groups -> pgs_inv P w0 done xd ->
  fst (fold_left (pgs_group P order r w0) groups xd) = gs_spec P r (concat groups) (fst xd).
Proof.
  intros HB Hl Ho. induction groups as [|g gs IH]; intros done xd Hne Hlt Hnd Hok Hi; [reflexivity|].
  inversion Hne as [|? ? Hg Hgs]; subst. cbn [concat] in Hlt, Hnd. cbn [groups_ok] in Hok. destruct Hok as (O1 & O2 & O3).
  apply Forall_app in Hlt as [Hlt1 Hlt2].
  assert (Ng : NoDup g). { apply NoDup_app_l in Hnd. apply NoDup_app_l in Hnd. auto. }
  assert (Disj : forall k, In k g -> ~ In k done).
  { intros k Hk Hk'. rewrite <- app_assoc in Hnd. apply in_split in Hk as (a & b & ->).
    rewrite <- app_assoc in Hnd. cbn in Hnd. apply NoDup_remove_2 in Hnd. apply Hnd.
    rewrite !in_app_iff. auto. }
  cbn [fold_left concat]. unfold gs_spec. rewrite fold_left_app. fold (gs_spec P r g (fst xd)).
  set (xd1 := pgs_group P order r w0 xd g).
  assert (Ng' : NoDup (order g)) by (eapply Permutation_NoDup; [apply Permutation_sym, Ho|auto]).
  assert (Hlt1' : Forall (fun k => (k < pK P)%nat) (order g)).
  { apply Forall_forall. intros k Hk. rewrite Forall_forall in Hlt1. apply Hlt1. eapply Permutation_in; [apply Ho|auto]. }
  assert (X : fst xd1 = gs_spec P r g (fst xd)).
  { unfold xd1, pgs_group. destruct g as [|f g']; [congruence|]. set (g := f :: g') in *.
    set (w := fun j => w0 j + rsum f (fun i => snd xd i j)).
    rewrite (surjective_pairing xd), pgs_fold_x. cbn [fst].
    rewrite (pfold_perm P r w (order g) g (fst xd)); auto.
    apply gs_group; auto.
    intros k Hk i Hi'. destruct Hi as (I1 & I2 & I3).
    assert (Hf : (f <= pK P)%nat). { inversion Hlt1; subst. lia. }
    assert (EW : WJTx P (fst xd) = (fun j => w j + rsum (pK P - f) (fun i => snd xd (f + i)%nat j))).
    { extensionality j. rewrite I1. rewrite (rsum_split_le (pK P) f) by auto. unfold w. lra. }
    rewrite EW, mdotv_plus. enough (Z : mdotv (pN P) (pJ P) (fun j => rsum (pK P - f) (fun i => snd xd (f + i)%nat j)) (pB P * k + i)%nat = 0) by lra.
    unfold mdotv. rewrite (rsum_ext _ _ (fun j => rsum (pK P - f) (fun i0 => pJ P (pB P * k + i)%nat j * snd xd (f + i0)%nat j))).
    2: { intros j Hj. rewrite <- rsum_scale. reflexivity. }
    rewrite rsum_swap. apply rsum_zero. intros l Hl'.
    destruct (in_dec Nat.eq_dec (f + l)%nat done) as [D|D].
    - destruct (I3 (f+l)%nat) as (x' & x & ->). apply J_delta; auto. apply O1; auto. cbn. lia.
    - rewrite (I2 _ D). apply rsum_zero. intros j Hj. unfold vzeros. ring. }
  rewrite <- X. apply IH with (done := g ++ done); auto.
  - eapply Permutation_NoDup; [|exact Hnd]. rewrite <- app_assoc. rewrite !app_assoc.
    apply Permutation_app_tail. apply Permutation_app_comm.
  - unfold xd1, pgs_group. destruct g as [|f g']; [congruence|]. set (g := f :: g') in *.
    pose proof (pgs_steps_inv P r (fun j => w0 j + rsum f (fun i => snd xd i j)) w0 (order g) Hlt1' Ng' done xd) as K.
    destruct K as (K1 & K2 & K3); auto.
    { intros k Hk. apply Disj. eapply Permutation_in; [apply Ho|auto]. }
    split; [|split]; auto. intros i Hin. apply K2. intro H. apply Hin. apply in_app_iff in H. apply in_app_iff.
    destruct H; auto. left. eapply Permutation_in; [apply Ho|auto].
Qed.
