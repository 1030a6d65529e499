(** matrix3.polar_decomposition *)
From Verif Require Import Base VecModel MechModel MechSpec MechProofs.
Open Scope R_scope.

Lemma m3inv_some A : mdet A <> 0 -> exists B, m3inv A = Some B /\ mmul A B = mid /\ mmul B A = mid.
Proof.
  intros H. unfold m3inv. destruct (Reqb_spec (mdet A) 0); [contradiction|]. eexists. split; [reflexivity|].
  fold (cof A). split.
  - transitivity (m3scale (/ mdet A * mdet A) mid); [unfold cof; generalize (/ mdet A); mring|]. rewrite Rinv_l by auto. munf. f_equal; ring.
  - transitivity (m3scale (/ mdet A * mdet A) mid); [unfold cof; generalize (/ mdet A); mring|]. rewrite Rinv_l by auto. munf. f_equal; ring.
Qed.
Lemma m3inv_inv A B : m3inv A = Some B -> mdet A <> 0 /\ mmul A B = mid /\ mmul B A = mid.
Proof. intros E. destruct (Req_EM_T (mdet A) 0) as [Z|N]. { unfold m3inv in E. destruct (Reqb_spec (mdet A) 0); [discriminate|contradiction]. } destruct (m3inv_some A N) as (B' & E' & H). split; auto. congruence. Qed.
Lemma mmul_assoc3 A B C : mmul (mmul A B) C = mmul A (mmul B C). Proof. mring. Qed.
Lemma mmul_id_l A : mmul mid A = A. Proof. mring. Qed.
Lemma mmul_id_r A : mmul A mid = A. Proof. mring. Qed.
Lemma mT_mul A B : mT (mmul A B) = mmul (mT B) (mT A). Proof. mring. Qed.
Lemma inv_unique A B C : mmul B A = mid -> mmul A C = mid -> B = C.
Proof. intros H1 H2. rewrite <- (mmul_id_r B), <- H2, <- mmul_assoc3, H1. apply mmul_id_l. Qed.

Definition spectral (V : mat3) (d : vec3) : mat3 := mmul (mmul V (mdiag d)) (mT V).
Lemma outer_spectral V a b c :
  m3add (m3add (m3scale a (m3outer (mcol0 V) (mcol0 V))) (m3scale b (m3outer (mcol1 V) (mcol1 V)))) (m3scale c (m3outer (mcol2 V) (mcol2 V))) = spectral V (mkV a b c).
Proof. unfold spectral. mring. Qed.
Lemma spectral_sym V d : symmetric (spectral V d). Proof. unfold symmetric, spectral. mring. Qed.
Lemma spectral_mul V a b : orthogonal V -> mmul (spectral V a) (spectral V b) = spectral V (mkV (vx a * vx b) (vy a * vy b) (vz a * vz b)).
Proof.
  intros H. unfold spectral. transitivity (mmul (mmul (mmul V (mdiag a)) (mmul (mT V) V)) (mmul (mdiag b) (mT V))); [mring|]. rewrite H. mring.
Qed.
Lemma spectral_det V d : orthogonal V -> mdet (spectral V d) = vx d * vy d * vz d.
Proof. intros H. unfold spectral. rewrite !det_mul. replace (mdet (mT V)) with (mdet V) by mring. pose proof (orth_det V H) as D. replace (mdet (mdiag d)) with (vx d * vy d * vz d) by mring. transitivity (vx d * vy d * vz d * (mdet V * mdet V)); [ring|rewrite D; ring]. Qed.
Lemma spectral_quad V d v : quad (spectral V d) v = let w := mvec (mT V) v in vx d * (vx w * vx w) + vy d * (vy w * vy w) + vz d * (vz w * vz w).
Proof. unfold spectral. mring. Qed.
Lemma orth_mvec_nonzero V v : orthogonal V -> v <> vzero -> mvec (mT V) v <> vzero.
Proof. intros H N Z. apply N. apply orth_T in H. transitivity (mvec (mmul V (mT V)) v); [rewrite H; mring|]. transitivity (mvec V (mvec (mT V) v)); [mring|]. rewrite Z. mring. Qed.
Lemma spectral_spd V d : orthogonal V -> 0 < vx d -> 0 < vy d -> 0 < vz d -> spd (spectral V d).
Proof.
  intros H A B C. split; [apply spectral_sym|]. intros v N. rewrite spectral_quad. cbv zeta. pose proof (orth_mvec_nonzero V v H N) as W. destruct (mvec (mT V) v) as [x y z]. cbn [vx vy vz].
  pose proof (Rle_0_sqr x) as X; pose proof (Rle_0_sqr y) as Y; pose proof (Rle_0_sqr z) as Z. unfold Rsqr in *.
  assert (P : forall a t, 0 < a -> 0 <= t -> 0 <= a * t) by (intros; apply Rmult_le_pos; lra).
  pose proof (P _ _ A X); pose proof (P _ _ B Y); pose proof (P _ _ C Z).
  destruct (Req_EM_T x 0) as [->|Nx]; [destruct (Req_EM_T y 0) as [->|Ny]; [destruct (Req_EM_T z 0) as [->|Nz]|]|].
  - exfalso. apply W. reflexivity.
  - assert (0 < z * z) by (apply Rlt_0_sqr; auto). assert (0 < vz d * (z * z)) by (apply Rmult_lt_0_compat; auto). lra.
  - assert (0 < y * y) by (apply Rlt_0_sqr; auto). assert (0 < vy d * (y * y)) by (apply Rmult_lt_0_compat; auto). lra.
  - assert (0 < x * x) by (apply Rlt_0_sqr; auto). assert (0 < vx d * (x * x)) by (apply Rmult_lt_0_compat; auto). lra.
Qed.
(** eigenvalues of A^T A are squared lengths *)
Lemma eig_nonneg A V d : orthogonal V -> mmul (mT A) A = spectral V d -> 0 <= vx d /\ 0 <= vy d /\ 0 <= vz d.
Proof.
  intros H E. assert (E2 : mmul (mT (mmul A V)) (mmul A V) = mdiag d).
  { transitivity (mmul (mmul (mT V) (mmul (mT A) A)) V); [mring|]. rewrite E. unfold spectral. transitivity (mmul (mmul (mmul (mT V) V) (mdiag d)) (mmul (mT V) V)); [mring|]. rewrite H. mring. }
  revert E2. generalize (mmul A V). intros B E2. destruct B as [b00 b01 b02 b10 b11 b12 b20 b21 b22], d as [x y z]. munf. injection E2; intros.
  pose proof (Rle_0_sqr b00); pose proof (Rle_0_sqr b01); pose proof (Rle_0_sqr b02); pose proof (Rle_0_sqr b10); pose proof (Rle_0_sqr b11); pose proof (Rle_0_sqr b12); pose proof (Rle_0_sqr b20); pose proof (Rle_0_sqr b21); pose proof (Rle_0_sqr b22). unfold Rsqr in *. lra.
Qed.

Lemma polar_spec eigh A : eigen_pair (mmul (mT A) A) (eigh (mmul (mT A) A)) ->
  (mdet A = 0 -> polar_decomposition eigh A = None) /\
  (mdet A <> 0 -> exists Q U, polar_decomposition eigh A = Some (Q, U) /\ mmul Q U = A /\ spd U /\ orthogonal Q /\ (0 < mdet U)).
Proof.
  unfold polar_decomposition. destruct (eigh (mmul (mT A) A)) as [d V]. intros [HV E]. cbn [fst snd] in *. fold (spectral V d) in E.
  destruct (eig_nonneg A V d HV E) as (Dx & Dy & Dz).
  assert (DD : vx d * vy d * vz d = mdet A * mdet A). { rewrite <- (spectral_det V d HV), <- E, det_mul. f_equal. mring. }
  split; intros HD.
  - rewrite HD in DD. destruct (Rltb_spec 0 (vx d)); auto. destruct (Rltb_spec 0 (vy d)); auto. destruct (Rltb_spec 0 (vz d)); auto. exfalso.
    assert (0 < vx d * vy d * vz d) by (repeat apply Rmult_lt_0_compat; auto). lra.
  - assert (NZ : vx d * vy d * vz d <> 0) by (rewrite DD; intros Z; apply Rmult_integral in Z; tauto).
    assert (Px : 0 < vx d) by (destruct Dx as [|Z]; auto; exfalso; apply NZ; rewrite <- Z; ring).
    assert (Py : 0 < vy d) by (destruct Dy as [|Z]; auto; exfalso; apply NZ; rewrite <- Z; ring).
    assert (Pz : 0 < vz d) by (destruct Dz as [|Z]; auto; exfalso; apply NZ; rewrite <- Z; ring).
    destruct (Rltb_spec 0 (vx d)); [|contradiction]. destruct (Rltb_spec 0 (vy d)); [|contradiction]. destruct (Rltb_spec 0 (vz d)); [|contradiction]. cbn [andb].
    rewrite outer_spectral. set (e := mkV (sqrt (vx d)) (sqrt (vy d)) (sqrt (vz d))). set (U := spectral V e).
    assert (SE : 0 < vx e /\ 0 < vy e /\ 0 < vz e) by (cbn; repeat split; apply sqrt_lt_R0; auto). destruct SE as (Ex & Ey & Ez).
    assert (PU : spd U) by (apply spectral_spd; auto).
    assert (DU : 0 < mdet U) by (unfold U; rewrite spectral_det by auto; repeat apply Rmult_lt_0_compat; auto).
    destruct (m3inv_some U ltac:(lra)) as (B & EB & UB & BU). rewrite EB. exists (mmul A B), U. split; [reflexivity|]. split; [rewrite mmul_assoc3, BU; apply mmul_id_r|]. split; [auto|]. split; [|auto].
    assert (SB : mT B = B). { apply (inv_unique U); [|auto]. destruct PU as [SU _]. unfold symmetric in SU. transitivity (mmul (mT B) (mT U)); [congruence|]. rewrite <- mT_mul, UB. reflexivity. }
    assert (UU : mmul U U = mmul (mT A) A). { rewrite E. unfold U. rewrite spectral_mul by auto. f_equal. cbn. rewrite !sqrt_sqrt by lra. destruct d; reflexivity. }
    unfold orthogonal. rewrite mT_mul, SB. transitivity (mmul B (mmul (mmul (mT A) A) B)); [rewrite !mmul_assoc3; reflexivity|]. rewrite <- UU. rewrite mmul_assoc3, UB, mmul_id_r. exact BU.
Qed.

(** tr((I-W) U (I-W)^T) = 2 tr U - 2 tr(W U) for orthogonal W and symmetric U *)
Lemma trace_gap W U : orthogonal W -> symmetric U -> let M := m3sub mid W in m3trace (mmul (mmul M U) (mT M)) = 2 * m3trace U - 2 * m3trace (mmul W U).
Proof.
  intros HW HU. cbv zeta. transitivity (m3trace U - m3trace (mmul W U) - m3trace (mmul (mT U) (mT W)) + m3trace (mmul U (mmul (mT W) W))); [unfold symmetric in HU; rewrite HU; clear; mring|].
  rewrite HW, mmul_id_r, <- mT_mul. replace (m3trace (mT (mmul W U))) with (m3trace (mmul W U)) by mring. ring.
Qed.
Lemma trace_conj_rows M U : m3trace (mmul (mmul M U) (mT M)) = quad U (mrow0 M) + quad U (mrow1 M) + quad U (mrow2 M).
Proof. mring. Qed.
Lemma quad_zero U v : spd U -> quad U v <= 0 -> v = vzero.
Proof.
  intros [_ H] L. assert (D : v = vzero \/ v <> vzero).
  { destruct v as [x y z]. destruct (Req_EM_T x 0) as [->|N]; [destruct (Req_EM_T y 0) as [->|N]; [destruct (Req_EM_T z 0) as [->|N]; [left; reflexivity|]|]|]; right; intros Z; injection Z; intros; contradiction. }
  destruct D as [D|D]; auto. specialize (H v D). lra.
Qed.
Lemma quad_nonneg U v : spd U -> 0 <= quad U v.
Proof. intros H. destruct (Rle_dec 0 (quad U v)); auto. assert (v = vzero) by (eapply quad_zero; eauto; lra). subst. munf. lra. Qed.
Lemma trace_max W U : orthogonal W -> spd U -> m3trace (mmul W U) <= m3trace U /\ (m3trace (mmul W U) = m3trace U -> W = mid).
Proof.
  intros HW HU. pose proof (trace_gap W U HW (proj1 HU)) as G. cbv zeta in G. rewrite trace_conj_rows in G. set (M := m3sub mid W) in *.
  pose proof (quad_nonneg U (mrow0 M) HU); pose proof (quad_nonneg U (mrow1 M) HU); pose proof (quad_nonneg U (mrow2 M) HU). split; [lra|]. intros E.
  pose proof (quad_zero U (mrow0 M) HU ltac:(lra)) as Z0. pose proof (quad_zero U (mrow1 M) HU ltac:(lra)) as Z1. pose proof (quad_zero U (mrow2 M) HU ltac:(lra)) as Z2.
  unfold M in *. clear - Z0 Z1 Z2. destruct W. munf. injection Z0; injection Z1; injection Z2; intros. f_equal; lra.
Qed.
Lemma polar_unique Q U Q' U' : orthogonal Q -> orthogonal Q' -> spd U -> spd U' -> mmul Q U = mmul Q' U' -> Q = Q' /\ U = U'.
Proof.
  intros HQ HQ' HU HU' E. set (W := mmul (mT Q') Q).
  assert (HW : orthogonal W). { unfold W, orthogonal. rewrite mT_mul, mT_T. transitivity (mmul (mT Q) (mmul (mmul Q' (mT Q')) Q)); [rewrite !mmul_assoc3; reflexivity|]. rewrite (orth_T Q' HQ'), mmul_id_l. exact HQ. }
  assert (EU : U' = mmul W U). { unfold W. rewrite mmul_assoc3, E, <- mmul_assoc3, HQ'. symmetry. apply mmul_id_l. }
  assert (HWT : orthogonal (mT W)) by (unfold orthogonal; rewrite mT_T; apply orth_T; auto).
  assert (EU' : U = mmul (mT W) U'). { rewrite EU, <- mmul_assoc3, HW. symmetry. apply mmul_id_l. }
  destruct (trace_max W U HW HU) as [L1 E1]. destruct (trace_max (mT W) U' HWT HU') as [L2 _]. rewrite <- EU in L1, E1. rewrite <- EU' in L2.
  assert (WI : W = mid) by (apply E1; lra). split.
  - transitivity (mmul (mmul Q' (mT Q')) Q); [rewrite (orth_T Q' HQ'); symmetry; apply mmul_id_l|]. rewrite mmul_assoc3. fold W. rewrite WI. apply mmul_id_r.
  - rewrite EU, WI. symmetry. apply mmul_id_l.
Qed.
