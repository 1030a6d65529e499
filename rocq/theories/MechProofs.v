From Coquelicot Require Import Coquelicot.
From Verif Require Import Base VecModel MechModel MechSpec.
Open Scope R_scope.

Ltac munf := cbv [m3add m3sub m3scale m3trace m3dot m3outer m3cols right_cauchy_strain_tensor green_strain_tensor symmetric orthogonal quad] in *; vunf.
Ltac mring := intros; repeat match goal with v : vec3 |- _ => destruct v | A : mat3 |- _ => destruct A end; munf; first [field | f_equal; field].

Lemma dl_is e x d : is_derive e x d -> derivable_pt_lim e x d.
Proof. intros H. apply is_derive_Reals. exact H. Qed.

(** ** SVK *)
Lemma green_line F H t : green_strain_tensor (m3add F (m3scale t H)) =
  m3add (green_strain_tensor F) (m3add (m3scale t (m3scale (/ 2) (m3add (mmul (mT F) H) (mmul (mT H) F)))) (m3scale (t * t) (m3scale (/ 2) (mmul (mT H) H)))).
Proof. mring. Qed.
Lemma m3trace_add A B : m3trace (m3add A B) = m3trace A + m3trace B. Proof. mring. Qed.
Lemma m3trace_scale s A : m3trace (m3scale s A) = s * m3trace A. Proof. mring. Qed.
Lemma m3dot_add_l A B C : m3dot (m3add A B) C = m3dot A C + m3dot B C. Proof. mring. Qed.
Lemma m3dot_scale_l s A C : m3dot (m3scale s A) C = s * m3dot A C. Proof. mring. Qed.
Lemma m3dot_comm A B : m3dot A B = m3dot B A. Proof. mring. Qed.

Lemma svk_gradient F lam mu P : svk_pk1 F lam mu = Some P -> is_gradient (fun A => svk_energy A lam mu) F P.
Proof.
  intros E H. unfold svk_pk1 in E. injection E as <-.
  set (E0 := green_strain_tensor F). set (E1 := m3scale (/ 2) (m3add (mmul (mT F) H) (mmul (mT H) F))). set (E2 := m3scale (/ 2) (mmul (mT H) H)).
  exists (fun t => 1 / 2 * lam * ((m3trace E0 + (t * m3trace E1 + t * t * m3trace E2)) * (m3trace E0 + (t * m3trace E1 + t * t * m3trace E2)))
            + mu * (m3dot E0 E0 + t * (2 * m3dot E0 E1) + t * t * (m3dot E1 E1 + 2 * m3dot E0 E2) + t * t * t * (2 * m3dot E1 E2) + t * t * t * t * m3dot E2 E2)).
  split.
  - intros t. unfold svk_energy. rewrite green_line. fold E0 E1 E2. rewrite !m3trace_add, !m3trace_scale. f_equal. f_equal. f_equal.
    generalize E0 E1 E2. mring.
  - apply dl_is. auto_derive; [auto|]. 
    replace (m3dot (mmul F (m3add (m3scale (lam * m3trace E0) mid) (m3scale (2 * mu) E0))) H) with (lam * m3trace E0 * m3trace E1 + 2 * mu * m3dot E0 E1).
    + field.
    + unfold E1. assert (SE : mT E0 = E0) by (unfold E0; clear; mring). revert SE. generalize E0. clear. intros E SE. destruct E, F, H. munf. injection SE; intros. subst. field.
Qed.
Lemma svk_stress_symmetric F lam mu P : svk_pk1 F lam mu = Some P -> symmetric (mmul P (mT F)).
Proof. intros E. injection E as <-. mring. Qed.
Lemma green_objective Q F : orthogonal Q -> green_strain_tensor (mmul Q F) = green_strain_tensor F.
Proof.
  intros HQ. unfold green_strain_tensor, right_cauchy_strain_tensor. do 2 f_equal.
  transitivity (mmul (mmul (mT F) (mmul (mT Q) Q)) F); [mring|]. rewrite HQ. mring.
Qed.
Lemma svk_objective Q F lam mu : orthogonal Q -> svk_energy (mmul Q F) lam mu = svk_energy F lam mu /\ svk_pk1 (mmul Q F) lam mu = option_map (mmul Q) (svk_pk1 F lam mu).
Proof. intros HQ. unfold svk_energy, svk_pk1. rewrite green_objective by auto. split; auto. cbn. f_equal. generalize (m3add (m3scale (lam * m3trace (green_strain_tensor F)) mid) (m3scale (2 * mu) (green_strain_tensor F))). mring. Qed.
Lemma green_orth Q : orthogonal Q -> green_strain_tensor Q = mzero.
Proof. intros HQ. unfold green_strain_tensor, right_cauchy_strain_tensor. rewrite HQ. mring. Qed.
Lemma svk_rest Q lam mu : orthogonal Q -> svk_energy Q lam mu = Some 0 /\ svk_pk1 Q lam mu = Some mzero.
Proof.
  intros HQ. unfold svk_energy, svk_pk1. rewrite green_orth by auto. split; f_equal.
  - munf. field.
  - destruct Q. munf. f_equal; ring.
Qed.
Lemma m3dot_nonneg A : 0 <= m3dot A A.
Proof. destruct A. munf. repeat apply Rplus_le_le_0_compat; apply Rle_0_sqr. Qed.
Lemma m3dot_zero A : m3dot A A = 0 -> A = mzero.
Proof.
  destruct A. munf. intros H.
  pose proof (Rle_0_sqr m00); pose proof (Rle_0_sqr m01); pose proof (Rle_0_sqr m02); pose proof (Rle_0_sqr m10); pose proof (Rle_0_sqr m11); pose proof (Rle_0_sqr m12); pose proof (Rle_0_sqr m20); pose proof (Rle_0_sqr m21); pose proof (Rle_0_sqr m22).
  unfold Rsqr in *. f_equal; apply Rsqr_eq_0; unfold Rsqr; lra.
Qed.
(** tr(A)^2 <= 3 A:A *)
Lemma trace_bound A : m3trace A * m3trace A <= 3 * m3dot A A.
Proof.
  destruct A. munf. pose proof (Rle_0_sqr (m00 - m11)); pose proof (Rle_0_sqr (m00 - m22)); pose proof (Rle_0_sqr (m11 - m22)).
  pose proof (Rle_0_sqr m01); pose proof (Rle_0_sqr m02); pose proof (Rle_0_sqr m10); pose proof (Rle_0_sqr m12); pose proof (Rle_0_sqr m20); pose proof (Rle_0_sqr m21). unfold Rsqr in *. lra.
Qed.
(** positive away from rigid deformations when the bulk modulus 3 lam + 2 mu and mu are positive *)
Lemma svk_nonneg F lam mu e : 0 < mu -> 0 < 3 * lam + 2 * mu -> svk_energy F lam mu = Some e -> 0 <= e /\ (e = 0 -> orthogonal F).
Proof.
  intros Hm Hl E. injection E as <-. set (E := green_strain_tensor F). pose proof (trace_bound E) as TB. pose proof (m3dot_nonneg E) as N. pose proof (Rle_0_sqr (m3trace E)) as TS. unfold Rsqr in TS.
  set (t := m3trace E * m3trace E) in *. set (d := m3dot E E) in *.
  assert (B : 0 <= 1 / 2 * lam * t + mu * d) by nra. split; [exact B|]. intros Z.
  assert (H : d = 0) by (destruct (Rle_dec 0 lam); [assert (0 <= lam * t) by (apply Rmult_le_pos; lra); assert (mu * d <= 0) by lra; nra|assert (3 * (lam * d) <= lam * t) by nra; assert ((3 * lam + 2 * mu) * d <= 0) by lra; nra]). apply m3dot_zero in H. unfold orthogonal. unfold E in H. revert H. clear. destruct F. munf. intros H. injection H; intros. f_equal; lra.
Qed.

(** ** SNH *)
Lemma IC_nonneg F : 0 <= m3trace (mmul (mT F) F).
Proof. replace (m3trace (mmul (mT F) F)) with (m3dot F F) by mring. apply m3dot_nonneg. Qed.
Definition cof (F : mat3) : mat3 := m3cols (vcross (mcol1 F) (mcol2 F)) (vcross (mcol2 F) (mcol0 F)) (vcross (mcol0 F) (mcol1 F)).
Lemma det_line F H t : mdet (m3add F (m3scale t H)) = mdet F + t * m3dot (cof F) H + t * t * m3dot (cof H) F + t * t * t * mdet H.
Proof. unfold cof. mring. Qed.
Lemma IC_line F H t : m3trace (mmul (mT (m3add F (m3scale t H))) (m3add F (m3scale t H))) = m3trace (mmul (mT F) F) + t * (2 * m3dot F H) + t * t * m3trace (mmul (mT H) H).
Proof. mring. Qed.
(** the energy with the logarithm to base b; the code has base 2 *)
Definition snh_energy_log (lg : R -> R) (F : mat3) (lambda_in mu_in : R) : option R :=
  let mu := (4 / 3) * mu_in in let lam := lambda_in + (5 / 6) * mu_in in
  if Reqb lam 0 then None else
  let alpha := snh_alpha mu lam in let J := mdet F in let I_C := m3trace (mmul (mT F) F) in
  Some (1 / 2 * mu * (I_C - 3) + 1 / 2 * lam * ((J - alpha) * (J - alpha)) - 1 / 2 * mu * lg (I_C + 1)).
Lemma snh_energy_eq F lam mu : snh_energy F lam mu = snh_energy_log log2 F lam mu. Proof. reflexivity. Qed.

Lemma snh_log_deriv k F H lam_in mu_in : let mu := (4 / 3) * mu_in in let lam := lam_in + (5 / 6) * mu_in in lam <> 0 -> 
  dir_derivative (fun A => snh_energy_log (fun x => k * ln x) A lam_in mu_in) F H
    (mu * (1 - k / (m3trace (mmul (mT F) F) + 1)) * m3dot F H + lam * (mdet F - snh_alpha mu lam) * m3dot (cof F) H).
Proof.
  intros mu lam HL. pose proof (IC_nonneg F) as IF. set (al := snh_alpha mu lam).
  set (i0 := m3trace (mmul (mT F) F)) in *. set (i1 := 2 * m3dot F H). set (i2 := m3trace (mmul (mT H) H)).
  set (j0 := mdet F). set (j1 := m3dot (cof F) H). set (j2 := m3dot (cof H) F). set (j3 := mdet H).
  exists (fun t => 1 / 2 * mu * ((i0 + t * i1 + t * t * i2) - 3) + 1 / 2 * lam * (((j0 + t * j1 + t * t * j2 + t * t * t * j3) - al) * ((j0 + t * j1 + t * t * j2 + t * t * t * j3) - al)) - 1 / 2 * mu * (k * ln ((i0 + t * i1 + t * t * i2) + 1))).
  split.
  - intros t. unfold snh_energy_log. fold mu lam. destruct (Reqb_spec lam 0); [contradiction|]. rewrite det_line, IC_line. reflexivity.
  - apply dl_is. auto_derive.
    + rewrite !Rmult_0_l, !Rplus_0_r. lra.
    + rewrite !Rmult_0_l, !Rplus_0_r. unfold i1. field. lra.
Qed.
Lemma snh_pk1_dot F H lam_in mu_in P : snh_pk1 F lam_in mu_in = Some P -> let mu := (4 / 3) * mu_in in let lam := lam_in + (5 / 6) * mu_in in lam <> 0 /\
  m3dot P H = mu * (1 - 1 / (m3trace (mmul (mT F) F) + 1)) * m3dot F H + lam * (mdet F - snh_alpha mu lam) * m3dot (cof F) H.
Proof.
  intros E mu lam. unfold snh_pk1 in E. fold mu lam in E. destruct (Reqb_spec lam 0); [discriminate|]. split; auto. injection E as <-.
  fold (cof F). rewrite m3dot_add_l, !m3dot_scale_l. reflexivity.
Qed.
(** the stress is the derivative of the energy with the natural logarithm *)
Lemma snh_gradient_ln F lam mu P : snh_pk1 F lam mu = Some P -> is_gradient (fun A => snh_energy_log ln A lam mu) F P.
Proof.
  intros E H. destruct (snh_pk1_dot F H lam mu P E) as [HL ->]. destruct (snh_log_deriv 1 F H lam mu HL) as (e & E1 & E2).
  exists e. split; auto. intros t. rewrite <- E1. unfold snh_energy_log. destruct (Reqb _ 0); auto. do 3 f_equal. ring.
Qed.
Lemma snh_energy_2 A lam mu : snh_energy A lam mu = snh_energy_log (fun x => / ln 2 * ln x) A lam mu.
Proof. unfold snh_energy, snh_energy_log, log2. destruct (Reqb _ 0); auto. do 3 f_equal. field. rewrite <- ln_1. intros Z. apply ln_inv in Z; lra. Qed.
Lemma dir_unique psi F H d1 d2 : dir_derivative psi F H d1 -> dir_derivative psi F H d2 -> d1 = d2.
Proof.
  intros (e1 & A1 & B1) (e2 & A2 & B2). eapply (uniqueness_limite e1); eauto.
  assert (X : forall t, e1 t = e2 t) by (intros; specialize (A1 t); specialize (A2 t); congruence).
  intros eps He. destruct (B2 eps He) as (dl & Hd). exists dl. intros h Hh Hl. rewrite !X. apply Hd; auto.
Qed.
Lemma ln2_lt1 : 0 < ln 2 < 1.
Proof.
  split; [rewrite <- ln_1; apply ln_increasing; lra|]. apply exp_lt_inv. rewrite exp_ln by lra. 
  pose proof (exp_ineq1 1 ltac:(lra)). lra.
Qed.
(** ... and of no other: with log2 the derivative differs from the stress unless mu = 0 or F:H = 0 *)
Lemma snh_gradient_log2 F lam mu P H : snh_pk1 F lam mu = Some P ->
  dir_derivative (fun A => snh_energy A lam mu) F H (m3dot P H + (4 / 3) * mu * (1 - / ln 2) / (m3trace (mmul (mT F) F) + 1) * m3dot F H).
Proof.
  intros E. destruct (snh_pk1_dot F H lam mu P E) as [HL ->]. destruct (snh_log_deriv (/ ln 2) F H lam mu HL) as (e & E1 & E2).
  exists e. split; [intros t; rewrite snh_energy_2; apply E1|]. pose proof (IC_nonneg F). pose proof ln2_lt1.
  match goal with |- derivable_pt_lim _ _ ?x => match type of E2 with derivable_pt_lim _ _ ?y => replace x with y; [exact E2|] end end. field. lra.
Qed.
Lemma snh_stress_symmetric F lam mu P : snh_pk1 F lam mu = Some P -> symmetric (mmul P (mT F)).
Proof.
  unfold snh_pk1. destruct (Reqb _ 0); [discriminate|]. intros E. injection E as <-. generalize ((4 / 3) * mu * (1 - (1 / (m3trace (mmul (mT F) F) + 1)))) ((lam + 5 / 6 * mu) * (mdet F - snh_alpha (4 / 3 * mu) (lam + 5 / 6 * mu))).
  intros a b. mring.
Qed.
Lemma mT_T A : mT (mT A) = A. Proof. destruct A; reflexivity. Qed.
Lemma orth_det Q : orthogonal Q -> mdet Q * mdet Q = 1.
Proof. intros H. assert (D : mdet (mmul (mT Q) Q) = mdet Q * mdet Q) by mring. rewrite H in D. rewrite <- D. munf. ring. Qed.
Lemma orth_T Q : orthogonal Q -> mmul Q (mT Q) = mid.
Proof.
  intros H. assert (D := orth_det Q H).
  (* Q^T = Q^T Q Q^T; the cofactors invert Q *)
  set (c := m3scale (mdet Q) (cof Q)).
  assert (C1 : mmul Q (mT c) = mid). { transitivity (m3scale (mdet Q * mdet Q) mid); [unfold c, cof; mring|rewrite D; munf; f_equal; ring]. }
  assert (C2 : mT c = mT Q). { transitivity (mmul (mmul (mT Q) Q) (mT c)); [rewrite H; generalize (mT c); mring|]. transitivity (mmul (mT Q) (mmul Q (mT c))); [generalize (mT c); mring|]. rewrite C1. mring. }
  rewrite <- C2. exact C1.
Qed.
Lemma orth_rotation Q : is_rotation Q -> orthogonal Q.
Proof.
  intros [H D]. assert (O : orthogonal (mT Q)) by (unfold orthogonal; replace (mT (mT Q)) with Q by (destruct Q; reflexivity); exact H).
  apply orth_T in O. replace (mT (mT Q)) with Q in O by (destruct Q; reflexivity). exact O.
Qed.
Lemma rotation_cof Q : is_rotation Q -> cof Q = Q.
Proof.
  intros HR. pose proof (orth_rotation Q HR) as HO. destruct HR as [H D].
  assert (E : mmul (mT (cof Q)) Q = m3scale (mdet Q) mid) by (unfold cof; mring). rewrite D in E.
  assert (E2 : mT (cof Q) = mT Q). { transitivity (mmul (mmul (mT (cof Q)) Q) (mT Q)); [|rewrite E; mring]. transitivity (mmul (mT (cof Q)) (mmul Q (mT Q))); [rewrite H; generalize (cof Q); mring|]. generalize (cof Q); mring. }
  rewrite <- (mT_T (cof Q)), E2. apply mT_T.
Qed.
Lemma IC_objective Q F : orthogonal Q -> mmul (mT (mmul Q F)) (mmul Q F) = mmul (mT F) F.
Proof. intros HQ. transitivity (mmul (mmul (mT F) (mmul (mT Q) Q)) F); [mring|]. rewrite HQ. mring. Qed.
Lemma cof_mul Q F : cof (mmul Q F) = mmul (cof Q) (cof F).
Proof. unfold cof. mring. Qed.
Lemma det_mul A B : mdet (mmul A B) = mdet A * mdet B.
Proof. mring. Qed.
Lemma snh_objective Q F lam mu : is_rotation Q -> snh_energy (mmul Q F) lam mu = snh_energy F lam mu /\ snh_pk1 (mmul Q F) lam mu = option_map (mmul Q) (snh_pk1 F lam mu).
Proof.
  intros HR. pose proof (orth_rotation Q HR) as HO. unfold snh_energy, snh_pk1. rewrite IC_objective, det_mul by auto. destruct HR as [H D]. rewrite D, Rmult_1_l.
  destruct (Reqb _ 0); [split; reflexivity|]. split; auto. cbn [option_map]. f_equal.
  change (m3cols (vcross (mcol1 (mmul Q F)) (mcol2 (mmul Q F))) (vcross (mcol2 (mmul Q F)) (mcol0 (mmul Q F))) (vcross (mcol0 (mmul Q F)) (mcol1 (mmul Q F)))) with (cof (mmul Q F)).
  rewrite cof_mul, rotation_cof by (split; auto). fold (cof F).
  generalize ((4 / 3) * mu * (1 - (1 / (m3trace (mmul (mT F) F) + 1)))) ((lam + 5 / 6 * mu) * (mdet F - snh_alpha (4 / 3 * mu) (lam + 5 / 6 * mu))) (cof F). intros a b c. mring.
Qed.
Lemma snh_rest Q lam mu : is_rotation Q -> lam + 5 / 6 * mu <> 0 -> snh_pk1 Q lam mu = Some mzero.
Proof.
  intros HR HL. pose proof (orth_rotation Q HR) as HO. unfold snh_pk1. destruct (Reqb_spec (lam + 5 / 6 * mu) 0); [contradiction|]. fold (cof Q). rewrite (rotation_cof Q HR). destruct HR as [H D].
  rewrite HO, D. replace (m3trace mid) with 3 by (munf; ring). f_equal.
  transitivity (m3scale (4 / 3 * mu * (1 - 1 / (3 + 1)) + (lam + 5 / 6 * mu) * (1 - snh_alpha (4 / 3 * mu) (lam + 5 / 6 * mu))) Q); [generalize (snh_alpha (4 / 3 * mu) (lam + 5 / 6 * mu)); mring|].
  replace (4 / 3 * mu * (1 - 1 / (3 + 1)) + (lam + 5 / 6 * mu) * (1 - snh_alpha (4 / 3 * mu) (lam + 5 / 6 * mu))) with 0; [mring|]. unfold snh_alpha. field. intros Z. apply HL. lra.
Qed.
