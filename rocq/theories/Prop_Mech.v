(** C96-C100: the material laws of the soft-body simulator and the polar decomposition.  Statements only use the model's
    functions, [MechSpec] and elementary algebra. *)
From Verif Require Import Base VecModel MechModel MechSpec MechProofs PolarProofs.
Open Scope R_scope.

(** ** C96: Lamé parameters *)
(** for E > 0 and -1 < nu < 1/2 both conversions succeed, the result is a stable material (mu > 0, 3 lambda + 2 mu > 0), and
    Young's modulus and Poisson's ratio can be recovered from it by the textbook formulas *)
Theorem C96_lame E nu : 0 < E -> -1 < nu < 1 / 2 ->
  exists lam mu, first_lame E nu = Some lam /\ second_lame E nu = Some mu /\
    0 < mu /\ 0 < 3 * lam + 2 * mu /\ (0 <= nu -> 0 <= lam) /\
    mu * (3 * lam + 2 * mu) / (lam + mu) = E /\ lam / (2 * (lam + mu)) = nu.
Proof.
  intros HE [H1 H2]. unfold first_lame, second_lame.
  assert (D1 : 0 < (1 + nu) * (1 - 2 * nu)) by (apply Rmult_lt_0_compat; lra).
  assert (D2 : 0 < 2 * (1 + nu)) by lra.
  rewrite (proj2 (Reqb_false _ _)) by lra. rewrite (proj2 (Reqb_false _ _)) by lra.
  eexists _, _. split; [reflexivity|]. split; [reflexivity|].
  assert (S : nu * E / ((1 + nu) * (1 - 2 * nu)) + E / (2 * (1 + nu)) = E / (2 * (1 + nu) * (1 - 2 * nu))) by (field; lra).
  split; [apply Rdiv_lt_0_compat; lra|].
  split. { replace (3 * (nu * E / ((1 + nu) * (1 - 2 * nu))) + 2 * (E / (2 * (1 + nu)))) with (E / (1 - 2 * nu)) by (field; lra). apply Rdiv_lt_0_compat; lra. }
  split. { intros Hn. apply Rmult_le_pos; [apply Rmult_le_pos; lra|]. left. apply Rinv_0_lt_compat. exact D1. }
  rewrite S. split; field; lra.
Qed.
(** the same parameters come from at most one material *)
Theorem C96_injective E nu E' nu' lam mu : 0 < E -> -1 < nu < 1 / 2 -> 0 < E' -> -1 < nu' < 1 / 2 ->
  first_lame E nu = Some lam -> second_lame E nu = Some mu -> first_lame E' nu' = Some lam -> second_lame E' nu' = Some mu -> E = E' /\ nu = nu'.
Proof.
  intros HE Hn HE' Hn' A B A' B'. destruct (C96_lame E nu HE Hn) as (l & m & L & M & _ & _ & _ & R1 & R2).
  destruct (C96_lame E' nu' HE' Hn') as (l' & m' & L' & M' & _ & _ & _ & R1' & R2').
  replace l with lam in * by congruence. replace m with mu in * by congruence.
  replace l' with lam in * by congruence. replace m' with mu in * by congruence. split; congruence.
Qed.
(** set_elasticity (api.py:293-311) accepts every nu with 0 <= nu <= 1/2, but nu = 1/2 has no first Lamé parameter: the next
    force or energy computation divides by zero *)
Definition set_elasticity_accepts (E nu : R) : Prop := ~ (E <= 0) /\ ~ (nu < 0 \/ nu > 1 / 2).
Theorem C96_incompressible_refuted : ~ (forall E nu, set_elasticity_accepts E nu -> first_lame E nu <> None).
Proof.
  intros H. apply (H 1 (1 / 2)); [unfold set_elasticity_accepts; lra|]. unfold first_lame. rewrite (proj2 (Reqb_true _ _)); [reflexivity|lra].
Qed.
Example C96_nonvacuous : exists lam mu, first_lame 100000 (3 / 10) = Some lam /\ second_lame 100000 (3 / 10) = Some mu /\ 0 < lam /\ 0 < mu.
Proof.
  destruct (C96_lame 100000 (3 / 10)) as (l & m & A & B & C & D & F & G & K); [lra|lra|]. exists l, m. repeat split; auto.
  assert (0 <= l) by (apply F; lra). destruct (Req_dec l 0) as [->|]; [|lra]. exfalso. unfold Rdiv in K. rewrite Rmult_0_l in K. lra.
Qed.

(** ** C97: the Saint Venant-Kirchhoff model *)
(** pk1_stress never fails and is the derivative of energy_density *)
Theorem C97_gradient F lam mu : exists P, pk1_stress SVK F lam mu = Some P /\ is_gradient (fun A => energy_density SVK A lam mu) F P.
Proof. eexists. split; [reflexivity|]. apply svk_gradient. reflexivity. Qed.
(** a rotation (or reflection) of the deformed body does not change the energy and rotates the stress *)
Theorem C97_objective Q F lam mu : orthogonal Q -> energy_density SVK (mmul Q F) lam mu = energy_density SVK F lam mu /\
  pk1_stress SVK (mmul Q F) lam mu = option_map (mmul Q) (pk1_stress SVK F lam mu).
Proof. apply svk_objective. Qed.
(** the Kirchhoff stress P F^T is symmetric (balance of angular momentum) *)
Theorem C97_symmetric F lam mu P : pk1_stress SVK F lam mu = Some P -> symmetric (mmul P (mT F)).
Proof. apply svk_stress_symmetric. Qed.
(** undeformed bodies store no energy and carry no stress; for a stable material every other deformation stores energy *)
Theorem C97_rest Q lam mu : orthogonal Q -> energy_density SVK Q lam mu = Some 0 /\ pk1_stress SVK Q lam mu = Some mzero.
Proof. apply svk_rest. Qed.
Theorem C97_energy F lam mu : 0 < mu -> 0 < 3 * lam + 2 * mu -> exists e, energy_density SVK F lam mu = Some e /\ 0 <= e /\ (e = 0 <-> orthogonal F).
Proof.
  intros A B. eexists. split; [reflexivity|]. destruct (svk_nonneg F lam mu _ A B eq_refl) as [P Q]. split; [exact P|]. split; [exact Q|].
  intros O. destruct (svk_rest F lam mu O) as [E _]. unfold svk_energy in E. injection E as E. exact E.
Qed.
Example C97_nonvacuous : energy_density SVK (mdiag (mkV 2 1 1)) 1 1 = Some (27 / 8) /\ ~ orthogonal (mdiag (mkV 2 1 1)) /\ orthogonal (mdiag (mkV (-1) (-1) 1)).
Proof.
  split; [unfold energy_density, SVK, svk_energy; apply f_equal; munf; field|]. split; [|unfold orthogonal; cbv; f_equal; ring]. unfold orthogonal. intros H. apply (f_equal m00) in H. cbn in H. lra.
Qed.

(** ** C98: the stable Neo-Hookean model *)
Theorem C98_objective Q F lam mu : is_rotation Q -> energy_density SNH (mmul Q F) lam mu = energy_density SNH F lam mu /\
  pk1_stress SNH (mmul Q F) lam mu = option_map (mmul Q) (pk1_stress SNH F lam mu).
Proof. apply snh_objective. Qed.
Theorem C98_symmetric F lam mu P : pk1_stress SNH F lam mu = Some P -> symmetric (mmul P (mT F)).
Proof. apply snh_stress_symmetric. Qed.
(** the stress vanishes in the rest state (the re-parametrisation with alpha does its job) *)
Theorem C98_rest Q lam mu : is_rotation Q -> lam + 5 / 6 * mu <> 0 -> pk1_stress SNH Q lam mu = Some mzero.
Proof. apply snh_rest. Qed.
(** the stress is the derivative of the energy written with the natural logarithm.  [snh_energy_ln] is that energy, in the
    notation of the paper: (mu/2)(I_C - 3) + (lambda/2)(J - alpha)^2 - (mu/2) ln(I_C + 1) *)
Definition snh_energy_ln (F : mat3) (lambda_in mu_in : R) : R :=
  let mu := 4 / 3 * mu_in in let lam := lambda_in + 5 / 6 * mu_in in let alpha := 1 + mu / lam - mu / (4 * lam) in
  let IC := m3dot F F in mu / 2 * (IC - 3) + lam / 2 * (mdet F - alpha)^2 - mu / 2 * ln (IC + 1).
Lemma trace_dot F : m3trace (mmul (mT F) F) = m3dot F F. Proof. mring. Qed.
Theorem C98_gradient_partial F lam mu : lam + 5 / 6 * mu <> 0 ->
  exists P, pk1_stress SNH F lam mu = Some P /\ is_gradient (fun A => Some (snh_energy_ln A lam mu)) F P.
Proof.
  intros HL. cbn [pk1_stress SNH]. unfold snh_pk1. rewrite (proj2 (Reqb_false _ _)) by exact HL. eexists. split; [reflexivity|].
  intros H. destruct (snh_gradient_ln F lam mu _ ltac:(unfold snh_pk1; rewrite (proj2 (Reqb_false _ _)) by exact HL; reflexivity) H) as (e & E1 & E2).
  exists e. split; [|exact E2]. intros t. rewrite <- E1. unfold snh_energy_log. rewrite (proj2 (Reqb_false _ _)) by exact HL.
  unfold snh_energy_ln, snh_alpha. f_equal. rewrite trace_dot. field. lra.
Qed.
Lemma rot_mid : is_rotation mid. Proof. split; munf; [f_equal; ring|ring]. Qed.
(** energy_density computes np.log2 instead: stress and energy belong to different materials *)
Theorem C98_gradient_refuted : ~ (forall F lam mu P, 0 < lam -> 0 < mu -> pk1_stress SNH F lam mu = Some P -> is_gradient (fun A => energy_density SNH A lam mu) F P).
Proof.
  intros H. assert (R : pk1_stress SNH mid 1 1 = Some mzero) by (apply snh_rest; [exact rot_mid|lra]).
  pose proof (snh_gradient_log2 mid 1 1 mzero mid R) as D1. pose proof (H mid 1 1 mzero Rlt_0_1 Rlt_0_1 R mid) as D2.
  pose proof (dir_unique _ _ _ _ _ D1 D2) as E. pose proof ln2_lt1 as L.
  replace (m3dot mzero mid) with 0 in E by mring. replace (m3dot mid mid) with 3 in E by mring. replace (m3trace (mmul (mT mid) mid)) with 3 in E by mring.
  assert (1 - / ln 2 = 0) by lra. assert (/ ln 2 > 1); [|lra]. rewrite <- Rinv_1. apply Rinv_lt_contravar; lra.
Qed.
(** with the energy as coded the rest state is not stationary: expanding the undeformed body lowers energy_density at first *)
Theorem C98_rest_not_stationary_refuted : ~ (forall lam mu, 0 < lam -> 0 < mu -> is_gradient (fun A => energy_density SNH A lam mu) mid mzero).
Proof.
  intros H. assert (R : pk1_stress SNH mid 1 1 = Some mzero) by (apply snh_rest; [exact rot_mid|lra]).
  pose proof (snh_gradient_log2 mid 1 1 mzero mid R) as D1. pose proof (H 1 1 Rlt_0_1 Rlt_0_1 mid) as D2.
  pose proof (dir_unique _ _ _ _ _ D1 D2) as E. pose proof ln2_lt1 as L.
  replace (m3dot mzero mid) with 0 in E by mring. replace (m3dot mid mid) with 3 in E by mring. replace (m3trace (mmul (mT mid) mid)) with 3 in E by mring.
  assert (1 - / ln 2 = 0) by lra. assert (/ ln 2 > 1); [|lra]. rewrite <- Rinv_1. apply Rinv_lt_contravar; lra.
Qed.
Example C98_nonvacuous : exists P, pk1_stress SNH (mdiag (mkV 2 1 1)) 1 1 = Some P /\ P <> mzero.
Proof.
  eexists. split; [cbn [pk1_stress SNH]; unfold snh_pk1; rewrite (proj2 (Reqb_false _ _)) by lra; reflexivity|].
  intros H. apply (f_equal m11) in H. cbv - [Rplus Rmult Rinv Rdiv Rminus IZR] in H. lra.
Qed.

(** ** C99: the co-rotational model, the default of every new material *)
(** whatever the deformation and whatever np.linalg.eigh answers, both functions raise: F[e] is a single 3-by-3 array and
    polar_decomposition_array only takes stacks.  A body whose material still has the default constitutive model cannot be
    simulated and has no elastic energy. *)
Theorem C99_usable_refuted : ~ (exists eigh F lam mu, pk1_stress (COR eigh) F lam mu <> None \/ energy_density (COR eigh) F lam mu <> None).
Proof. intros (e & F & lam & mu & [H | H]); apply H; reflexivity. Qed.
(** the formulas themselves, evaluated on the polar decomposition of one matrix, are those of a co-rotational material: no
    stress at rotations, symmetric Kirchhoff stress.  (Missing: the derivative property; the code never gets this far.) *)
Theorem C99_formula_partial eigh F lam mu Q U : eigen_pair (mmul (mT F) F) (eigh (mmul (mT F) F)) -> polar_decomposition eigh F = Some (Q, U) ->
  let P := m3add (m3scale (lam * m3trace (m3sub U mid)) Q) (m3scale (2 * mu) (m3sub F Q)) in
  symmetric (mmul P (mT F)) /\ (orthogonal F -> P = mzero).
Proof.
  intros He E P. destruct (polar_spec eigh F He) as [H0 H1]. destruct (Req_dec (mdet F) 0) as [D|D]; [rewrite (H0 D) in E; discriminate|].
  destruct (H1 D) as (Q' & U' & E' & QU & [SU PU] & OQ & _). rewrite E in E'. injection E' as <- <-.
  split.
  - subst P. clear - SU QU. rewrite <- QU. unfold symmetric in *. generalize (lam * m3trace (m3sub U mid)) (2 * mu). intros a b.
    assert (D : mmul (m3add (m3scale a Q) (m3scale b (m3sub (mmul Q U) Q))) (mT (mmul Q U)) =
      m3add (m3scale a (mmul Q (mmul U (mT Q)))) (m3scale b (m3sub (mmul Q (mmul U (mmul U (mT Q)))) (mmul Q (mmul U (mT Q)))))).
    { rewrite mT_mul, SU. clear SU QU. generalize (mT Q). intros Q'. mring. }
    assert (T : forall A B C, mT (m3add (m3scale a A) (m3scale b (m3sub B C))) = m3add (m3scale a (mT A)) (m3scale b (m3sub (mT B) (mT C)))) by (clear; intros; mring).
    rewrite D, T, !mT_mul, !mT_T, !SU, !mmul_assoc3. reflexivity.
  - intros OF. assert (SPD1 : spd mid). { split; [unfold symmetric; mring|]. intros v Hv. unfold quad. replace (mvec mid v) with v by (destruct v; cbv - [Rplus Rmult]; f_equal; ring).
      destruct v as [x y z]. unfold vdot. cbn. destruct (Req_dec x 0) as [->|]; [destruct (Req_dec y 0) as [->|]; [destruct (Req_dec z 0) as [->|]; [exfalso; apply Hv; reflexivity|]|]|]; nra. }
    destruct (polar_unique Q U F mid OQ OF (conj SU PU) SPD1) as [A B]. { rewrite QU. symmetry. apply mmul_id_r. }
    subst P. rewrite A, B. clear. mring.
Qed.

(** ** C100: polar decomposition *)
(** for every matrix: with a correct eigen-decomposition the function raises exactly for singular matrices, and otherwise
    returns the one factorisation A = Q U with Q orthogonal and U symmetric positive definite *)
Theorem C100_decomposition eigh A : eigen_pair (mmul (mT A) A) (eigh (mmul (mT A) A)) ->
  (polar_decomposition eigh A = None <-> mdet A = 0) /\
  (forall Q U, polar_decomposition eigh A = Some (Q, U) -> A = mmul Q U /\ orthogonal Q /\ spd U /\
     forall Q' U', A = mmul Q' U' -> orthogonal Q' -> spd U' -> Q' = Q /\ U' = U).
Proof.
  intros He. destruct (polar_spec eigh A He) as [H0 H1]. split.
  - split; [|exact H0]. intros E. destruct (Req_dec (mdet A) 0) as [D|D]; [exact D|]. destruct (H1 D) as (Q & U & E' & _). congruence.
  - intros Q U E. destruct (Req_dec (mdet A) 0) as [D|D]; [rewrite (H0 D) in E; discriminate|].
    destruct (H1 D) as (Q1 & U1 & E' & QU & SU & OQ & _). rewrite E in E'. injection E' as <- <-.
    split; [symmetry; exact QU|]. split; [exact OQ|]. split; [exact SU|]. intros Q' U' F OQ' SU'.
    apply (polar_unique Q' U' Q U OQ' OQ SU' SU). congruence.
Qed.
(** the orthogonal factor has the determinant sign of A; in particular it is a rotation when det A > 0 *)
Theorem C100_rotation eigh A Q U : eigen_pair (mmul (mT A) A) (eigh (mmul (mT A) A)) -> polar_decomposition eigh A = Some (Q, U) ->
  (0 < mdet A -> mdet Q = 1) /\ (mdet A < 0 -> mdet Q = -1).
Proof.
  intros He E. destruct (polar_spec eigh A He) as [H0 H1]. destruct (Req_dec (mdet A) 0) as [D|D]; [rewrite (H0 D) in E; discriminate|].
  destruct (H1 D) as (Q1 & U1 & E' & QU & SU & OQ & DU). rewrite E in E'. injection E' as <- <-.
  pose proof (orth_det Q OQ) as O. assert (M : mdet A = mdet Q * mdet U) by (rewrite <- QU; apply det_mul).
  assert (O2 : (mdet Q - 1) * (mdet Q + 1) = 0) by lra. apply Rmult_integral in O2. split; intros S; destruct O2; nra.
Qed.
(** the documentation promises det(R) = 1 without that condition *)
Theorem C100_always_rotation_refuted : ~ (forall eigh A Q U, eigen_pair (mmul (mT A) A) (eigh (mmul (mT A) A)) -> polar_decomposition eigh A = Some (Q, U) -> mdet Q = 1).
Proof.
  intros H. set (A := mdiag (mkV (-1) 1 1)). set (eigh := fun _ : mat3 => (mkV 1 1 1, mid)).
  assert (He : eigen_pair (mmul (mT A) A) (eigh (mmul (mT A) A))). { split; [unfold orthogonal; cbn; mring|]. unfold eigh, A. cbn [fst snd]. mring. }
  assert (DA : mdet A = -1) by (unfold A; mring).
  destruct (polar_spec eigh A He) as [_ H1]. destruct (H1 ltac:(lra)) as (Q & U & E & _).
  pose proof (H eigh A Q U He E). destruct (C100_rotation eigh A Q U He E) as [_ X]. specialize (X ltac:(lra)). lra.
Qed.
Example C100_nonvacuous : exists eigh A, eigen_pair (mmul (mT A) A) (eigh (mmul (mT A) A)) /\ mdet A = 2 /\ ~ orthogonal A.
Proof.
  exists (fun _ => (mkV 4 1 1, mid)), (mdiag (mkV 2 1 1)). split; [split; [unfold orthogonal; cbn; mring|cbn [fst snd]; mring]|]. split; [mring|].
  unfold orthogonal. intros H. apply (f_equal m00) in H. cbn in H. lra.
Qed.

(** Cauchy stress: for a symmetric second Piola-Kirchhoff stress the Cauchy stress is symmetric and is P F^T / J with P = F S *)
Theorem C97_cauchy F S' : symmetric S' -> mdet F <> 0 -> exists sg, cauchy_stress_tensor F S' = Some sg /\ symmetric sg /\ m3scale (mdet F) sg = mmul (mmul F S') (mT F).
Proof.
  intros Hs D. unfold cauchy_stress_tensor. rewrite (proj2 (Reqb_false _ _)) by exact D. eexists. split; [reflexivity|]. split.
  - unfold symmetric in *. assert (T : forall s A, mT (m3scale s A) = m3scale s (mT A)) by (intros; mring). rewrite T, !mT_mul, mT_T, Hs, mmul_assoc3. reflexivity.
  - assert (T : forall s t A, m3scale s (m3scale t A) = m3scale (s * t) A) by (intros; mring). rewrite T.
    replace (mdet F * (1 / mdet F)) with 1 by (field; exact D). rewrite <- mmul_assoc3. generalize (mmul (mmul F S') (mT F)). intros X. mring.
Qed.
