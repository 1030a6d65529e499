(** Lemmas about FemModel: geometry of a tetrahedron, deformation gradient, elastic forces and energies. *)
From Verif Require Import Base VecModel VecProofs SolverModel SolverProofs StepModel ConProofs MechModel MechSpec MechProofs PolarProofs FemModel FemSpec FemProofs.
Open Scope R_scope.

(** the edge matrix without the orientation test *)
Definition edges (x : field) (t : elem) : mat3 := m3cols (vsub (x (node t 1)) (x (node t 0))) (vsub (x (node t 2)) (x (node t 0))) (vsub (x (node t 3)) (x (node t 0))).
Lemma edges_det x t : mdet (edges x t) = 6 * elem_volume x t.
Proof. unfold edges, elem_volume, corners. generalize (x (node t 0)) (x (node t 1)) (x (node t 2)) (x (node t 3)). intros [] [] [] []. munf. field. Qed.
Lemma elem_D_spec x t : elem_D x t = if Rleb (elem_volume x t) 0 then None else Some (edges x t).
Proof.
  unfold elem_D, elem_volume, edges, corners. generalize (x (node t 0)) (x (node t 1)) (x (node t 2)) (x (node t 3)). intros a b c d.
  destruct (Rleb_spec (vdot (vsub d a) (vcross (vsub b a) (vsub c a))) 0); destruct (Rleb_spec (vdot (vsub d a) (vcross (vsub b a) (vsub c a)) / 6) 0); try reflexivity; exfalso; lra.
Qed.
Lemma elem_D_some x t D : elem_D x t = Some D <-> 0 < elem_volume x t /\ D = edges x t.
Proof. rewrite elem_D_spec. destruct (Rleb_spec (elem_volume x t) 0) as [H|H]; split; intros X; try discriminate; [lra|injection X as <-; split; [lra|reflexivity]|destruct X as [_ ->]; reflexivity]. Qed.

(** *** lists *)
Lemma map_all_some {A B} (f : A -> option B) l r : map_all f l = Some r <-> Forall2 (fun a b => f a = Some b) l r.
Proof.
  revert r. induction l as [|a l IH]; intros r; cbn [map_all].
  - split; [intros E; injection E as <-; constructor|]. intros H. inversion H. reflexivity.
  - destruct (f a) as [b|] eqn:Ea; [|split; [discriminate|]; intros H; inversion H; congruence].
    destruct (map_all f l) as [bs|] eqn:El.
    + split; [intros E; injection E as <-; constructor; [exact Ea|apply IH; reflexivity]|]. intros H. inversion H as [|? b' ? r' Hb Hr]; subst. apply IH in Hr. injection Hr as <-. congruence.
    + split; [discriminate|]. intros H. inversion H as [|? b' ? r' Hb Hr]; subst. apply IH in Hr. discriminate.
Qed.
Lemma map_all_none {A B} (f : A -> option B) l : map_all f l = None <-> Exists (fun a => f a = None) l.
Proof.
  induction l as [|a l IH]; cbn [map_all]; [split; [discriminate|intros H; inversion H]|].
  destruct (f a) as [b|] eqn:Ea; [|split; [intros _; left; exact Ea|reflexivity]].
  destruct (map_all f l) as [bs|] eqn:El; split; intros H.
  - discriminate.
  - inversion H as [? ? H'|? ? H']; subst; [congruence|apply IH in H'; discriminate].
  - right. apply IH. reflexivity.
  - reflexivity.
Qed.
(** compute_inverse_D0 succeeds exactly for meshes without degenerate or inverted tetrahedra *)
Lemma invD0_spec x0 T : (exists inv, compute_inverse_D0 x0 T = Some inv) <-> Forall (fun t => 0 < elem_volume x0 t) T.
Proof.
  unfold compute_inverse_D0, compute_D. split.
  - intros [inv H]. destruct (map_all (elem_D x0) T) as [D|] eqn:E; [|discriminate]. apply map_all_some in E. clear H. induction E; constructor; [|assumption]. apply elem_D_some in H. tauto.
  - intros H. induction H as [|t T Ht HT IH]; [exists []; reflexivity|]. destruct IH as [inv IH]. cbn [map_all].
    rewrite (proj2 (elem_D_some x0 t (edges x0 t)) (conj Ht eq_refl)). destruct (map_all (elem_D x0) T) as [D|]; [|discriminate]. cbn [map_all].
    destruct (m3inv_some (edges x0 t)) as (B & EB & _). { rewrite edges_det. lra. } rewrite EB, IH. eexists. reflexivity.
Qed.
Lemma invD0_forall x0 T inv : compute_inverse_D0 x0 T = Some inv -> Forall2 (fun t i => 0 < elem_volume x0 t /\ m3inv (edges x0 t) = Some i) T inv.
Proof.
  unfold compute_inverse_D0, compute_D. destruct (map_all (elem_D x0) T) as [D|] eqn:E; [|discriminate]. intros H. apply map_all_some in E, H.
  revert inv H. induction E as [|t d T D Hd HD IH]; intros inv H; inversion H as [|? i ? inv' Hi Hinv]; subst; constructor; [|apply IH; assumption].
  apply elem_D_some in Hd. destruct Hd as [P ->]. auto.
Qed.
Lemma F_forall x T inv F : compute_deformation_gradient x T inv = Some F -> length T = length inv ->
  Forall2 (fun ti Fe => 0 < elem_volume x (fst ti) /\ Fe = mmul (edges x (fst ti)) (snd ti)) (combine T inv) F.
Proof.
  unfold compute_deformation_gradient, compute_D. destruct (map_all (elem_D x) T) as [D|] eqn:E; [|discriminate]. intros H. injection H as <-. apply map_all_some in E.
  revert inv. induction E as [|t d T D Hd HD IH]; intros [|i inv] L; cbn in L; try discriminate; cbn [combine map]; constructor; [|apply IH; lia].
  apply elem_D_some in Hd. destruct Hd as [P ->]. auto.
Qed.
Lemma F_none x T inv : compute_deformation_gradient x T inv = None <-> Exists (fun t => elem_volume x t <= 0) T.
Proof.
  unfold compute_deformation_gradient, compute_D. destruct (map_all (elem_D x) T) as [D|] eqn:E.
  - split; [discriminate|]. intros H. exfalso. apply map_all_some in E. induction E as [|t d T D Hd HD IH]; [inversion H|]. apply elem_D_some in Hd. inversion H; subst; [lra|auto].
  - split; [intros _|reflexivity]. apply map_all_none in E. eapply Exists_impl; [|exact E]. intros t Ht. cbv beta in Ht. rewrite elem_D_spec in Ht. destruct (Rleb_spec (elem_volume x t) 0); [assumption|discriminate].
Qed.

(** *** one element *)
Definition face_work (P : mat3) (g : vec3 * vec3 * vec3 * vec3) (t : elem) (h : field) : R :=
  let '(g0, g1, g2, g3) := g in vdot (mvec P g0) (h (node t 0)) + vdot (mvec P g1) (h (node t 1)) + vdot (mvec P g2) (h (node t 2)) + vdot (mvec P g3) (h (node t 3)).
(** the discrete divergence theorem of a linear tetrahedron *)
Lemma elem_work x0 t inv P h : m3inv (edges x0 t) = Some inv -> elem_volume x0 t * m3dot P (mmul (edges h t) inv) = - face_work P (face_vectors x0 t) t h.
Proof.
  unfold m3inv. rewrite edges_det. destruct (Reqb_spec (6 * elem_volume x0 t) 0) as [Z|Z]; [discriminate|]. intros E. injection E as <-.
  set (v := elem_volume x0 t) in *.
  assert (S : forall C A s, m3dot P (mmul C (m3scale s A)) = s * m3dot P (mmul C A)) by (clear; intros; mring). rewrite S.
  replace (v * (/ (6 * v) * m3dot P (mmul (edges h t) (mT (m3cols (vcross (mcol1 (edges x0 t)) (mcol2 (edges x0 t))) (vcross (mcol2 (edges x0 t)) (mcol0 (edges x0 t))) (vcross (mcol0 (edges x0 t)) (mcol1 (edges x0 t))))))))
    with (/ 6 * m3dot P (mmul (edges h t) (mT (m3cols (vcross (mcol1 (edges x0 t)) (mcol2 (edges x0 t))) (vcross (mcol2 (edges x0 t)) (mcol0 (edges x0 t))) (vcross (mcol0 (edges x0 t)) (mcol1 (edges x0 t))))))) by (field; lra).
  clear. unfold edges, face_work, face_vectors, corners. generalize (x0 (node t 0)) (x0 (node t 1)) (x0 (node t 2)) (x0 (node t 3)) (h (node t 0)) (h (node t 1)) (h (node t 2)) (h (node t 3)).
  intros. mring.
Qed.
Lemma faces_sum x t : let '(g0, g1, g2, g3) := face_vectors x t in vadd (vadd (vadd g0 g1) g2) g3 = vzero.
Proof. unfold face_vectors, corners. generalize (x (node t 0)) (x (node t 1)) (x (node t 2)) (x (node t 3)). intros [] [] [] []. vunf. f_equal; field. Qed.

(** *** work of the elastic forces *)
Lemma add_face_work N y t P g h : (forall a, (node t a < N)%nat) -> work N (add_face_forces y t P g) h = work N y h + face_work P g t h.
Proof. intros H. destruct g as [[[g0 g1] g2] g3]. cbn [add_face_forces face_work]. rewrite !work_fadd by apply H. ring. Qed.
(** stresses of the elements *)
Definition stresses (F : list mat3) (pk1 : mat3 -> option mat3) : option (list mat3) := map_all pk1 F.
Lemma elastic_loop_work N T g F pk1 y Fe h : valid_mesh N T -> length T = length g -> length T = length F -> elastic_loop T g F pk1 y = Some Fe ->
  exists Ps, Forall2 (fun A P => pk1 A = Some P) F Ps /\
    work N Fe h = work N y h + sum (map (fun q : (elem * (vec3 * vec3 * vec3 * vec3)) * mat3 => face_work (snd q) (snd (fst q)) (fst (fst q)) h) (combine (combine T g) Ps)).
Proof.
  revert g F y. induction T as [|t T IH]; intros [|g0 g] [|F0 F] y HT Lg LF; cbn in Lg, LF; try discriminate; cbn [elastic_loop].
  - intros E. injection E as <-. exists []. split; [constructor|]. cbn. ring.
  - inversion HT as [|? ? Ht HT']; subst. destruct (pk1 F0) as [P|] eqn:EP; [|discriminate]. intros E.
    destruct (IH g F _ HT' ltac:(lia) ltac:(lia) E) as (Ps & H1 & H2). exists (P :: Ps). split; [constructor; assumption|].
    rewrite H2, (add_face_work N y t P g0 h Ht). cbn [combine map sum fold_right fst snd]. unfold sum. ring.
Qed.
Record eldata := mkEl { q_t : elem; q_i : mat3; q_F : mat3; q_P : mat3 }.
Definition el_ok (x0 x : field) (pk1 : mat3 -> option mat3) (q : eldata) : Prop :=
  0 < elem_volume x0 (q_t q) /\ m3inv (edges x0 (q_t q)) = Some (q_i q) /\ 0 < elem_volume x (q_t q) /\
  q_F q = mmul (edges x (q_t q)) (q_i q) /\ pk1 (q_F q) = Some (q_P q).
Lemma elastic_work N x0 T inv x F lam mu pk1 Fe : valid_mesh N T -> compute_inverse_D0 x0 T = Some inv -> compute_deformation_gradient x T inv = Some F ->
  compute_elastic_forces T (compute_outward_face_vectors x0 T) F lam mu pk1 = Some Fe ->
  exists L, T = map q_t L /\ inv = map q_i L /\ F = map q_F L /\ Forall (el_ok x0 x (fun A => pk1 A lam mu)) L /\
    forall h, work N Fe h = sum (map (fun q => - (elem_volume x0 (q_t q) * m3dot (q_P q) (mmul (edges h (q_t q)) (q_i q)))) L).
Proof.
  intros HT HI HF HE. pose proof (invD0_forall x0 T inv HI) as AI. 
  assert (LI : length T = length inv) by (clear - AI; induction AI; cbn; lia).
  pose proof (F_forall x T inv F HF LI) as AF.
  unfold compute_elastic_forces in HE. unfold compute_outward_face_vectors in HE.
  assert (G : forall y Fe, elastic_loop T (map (face_vectors x0) T) F (fun A => pk1 A lam mu) y = Some Fe ->
    exists L, T = map q_t L /\ inv = map q_i L /\ F = map q_F L /\ Forall (el_ok x0 x (fun A => pk1 A lam mu)) L /\
    forall h, work N Fe h = work N y h + sum (map (fun q => - (elem_volume x0 (q_t q) * m3dot (q_P q) (mmul (edges h (q_t q)) (q_i q)))) L)).
  { clear HI HF HE Fe LI. revert F AF. induction AI as [|t i T inv [V0 I0] AI IH]; intros F AF y Fe E; inversion AF as [|? Fe0 ? F' [V1 F1] AF']; subst; cbn [map elastic_loop] in E.
    - injection E as <-. exists []. repeat split; [constructor|]. intros h. cbn. ring.
    - cbn [fst snd] in *. destruct (pk1 _ lam mu) as [P|] eqn:EP; [|discriminate]. inversion HT as [|? ? Ht HT']; subst.
      destruct (IH HT' F' AF' _ Fe E) as (L & -> & -> & -> & HL & HW).
      exists (mkEl t i (mmul (edges x t) i) P :: L). repeat split; [constructor; [|exact HL]; repeat split; assumption|].
      intros h. rewrite HW, (add_face_work N y t P _ h Ht). cbn [map sum fold_right q_t q_i q_F q_P]. rewrite (elem_work x0 t i P h I0). unfold sum. ring. }
  destruct (G fzero Fe HE) as (L & A & B & C & D & E). exists L. repeat split; try assumption. intros h. rewrite E, work_fzero. ring.
Qed.
(** *** motions *)
Definition fline (x h : field) (s : R) : field := fun n => vadd (x n) (vscale s (h n)).
Lemma edges_line x h s t : edges (fline x h s) t = m3add (edges x t) (m3scale s (edges h t)).
Proof. unfold edges, fline. generalize (x (node t 0)) (x (node t 1)) (x (node t 2)) (x (node t 3)) (h (node t 0)) (h (node t 1)) (h (node t 2)) (h (node t 3)). intros. mring. Qed.
Lemma edges_affine B c x t : edges (fun n => vadd (mvec B (x n)) c) t = mmul B (edges x t).
Proof. unfold edges. generalize (x (node t 0)) (x (node t 1)) (x (node t 2)) (x (node t 3)). intros. mring. Qed.
Lemma volume_affine B c x t : elem_volume (fun n => vadd (mvec B (x n)) c) t = mdet B * elem_volume x t.
Proof. pose proof (edges_det x t) as A. pose proof (edges_det (fun n => vadd (mvec B (x n)) c) t) as C. rewrite edges_affine, det_mul in C. rewrite A in C. lra. Qed.
(** a positive element stays positive for small displacements *)
Lemma poly_pos d a b c : 0 < d -> exists delta, 0 < delta /\ forall s, Rabs s < delta -> 0 < d + s * a + s * s * b + s * s * s * c.
Proof.
  intros Hd. set (k := Rabs a + Rabs b + Rabs c + 1). assert (Hk : 0 < k) by (unfold k; pose proof (Rabs_pos a); pose proof (Rabs_pos b); pose proof (Rabs_pos c); lra).
  exists (Rmin 1 (d / k)). split; [apply Rmin_glb_lt; [lra|apply Rdiv_lt_0_compat; lra]|]. intros s Hs.
  assert (S1 : Rabs s < 1) by (eapply Rlt_le_trans; [exact Hs|apply Rmin_l]). assert (S2 : Rabs s < d / k) by (eapply Rlt_le_trans; [exact Hs|apply Rmin_r]).
  assert (S3 : Rabs s * k < d). { apply (Rmult_lt_compat_r k) in S2; [|exact Hk]. replace (d / k * k) with d in S2 by (field; lra). exact S2. }
  pose proof (Rabs_pos s) as P0. 
  assert (A1 : - (Rabs s * Rabs a) <= s * a) by (rewrite <- Rabs_mult; pose proof (Rle_abs (- (s * a))) as X; rewrite Rabs_Ropp in X; lra).
  assert (A2 : - (Rabs s * Rabs b) <= s * s * b).
  { pose proof (Rle_abs (- (s * s * b))) as X. rewrite Rabs_Ropp, !Rabs_mult in X. assert (Rabs s * Rabs s * Rabs b <= Rabs s * Rabs b); [|lra].
    apply Rmult_le_compat_r; [apply Rabs_pos|]. nra. }
  assert (A3 : - (Rabs s * Rabs c) <= s * s * s * c).
  { pose proof (Rle_abs (- (s * s * s * c))) as X. rewrite Rabs_Ropp, !Rabs_mult in X. assert (Rabs s * Rabs s * Rabs s * Rabs c <= Rabs s * Rabs c); [|lra].
    apply Rmult_le_compat_r; [apply Rabs_pos|]. assert (Rabs s * Rabs s <= 1) by nra. nra. }
  unfold k in S3. lra.
Qed.
Lemma elem_line_pos x h t : 0 < elem_volume x t -> exists delta, 0 < delta /\ forall s, Rabs s < delta -> 0 < elem_volume (fline x h s) t.
Proof.
  intros H. assert (D : 0 < mdet (edges x t)) by (rewrite edges_det; lra).
  destruct (poly_pos (mdet (edges x t)) (m3dot (cof (edges x t)) (edges h t)) (m3dot (cof (edges h t)) (edges x t)) (mdet (edges h t)) D) as (delta & P & Q).
  exists delta. split; [exact P|]. intros s Hs. specialize (Q s Hs). rewrite <- det_line in Q. rewrite <- edges_line, edges_det in Q. lra.
Qed.
Lemma mmul_line A H B s : mmul (m3add A (m3scale s H)) B = m3add (mmul A B) (m3scale s (mmul H B)).
Proof. mring. Qed.
(** *** the derivative of the elastic energy *)
Definition elastic_energy_at (x0 : field) (T : list elem) (inv : list mat3) (lam mu : R) (psi : mat3 -> R -> R -> option R) (x : field) : option R :=
  match compute_deformation_gradient x T inv with None => None | Some F => compute_elastic_energy (map (elem_volume x0) T) F lam mu psi end.
Lemma energy_derivative x0 x h lam mu psi pk1 L : Forall (el_ok x0 x (fun A => pk1 A lam mu)) L ->
  (forall q, In q L -> is_gradient (fun A => psi A lam mu) (q_F q) (q_P q)) ->
  exists delta e, 0 < delta /\ (forall s, Rabs s < delta -> elastic_energy_at x0 (map q_t L) (map q_i L) lam mu psi (fline x h s) = Some (e s)) /\
    derivable_pt_lim e 0 (sum (map (fun q => elem_volume x0 (q_t q) * m3dot (q_P q) (mmul (edges h (q_t q)) (q_i q))) L)).
Proof.
  unfold elastic_energy_at, compute_deformation_gradient, compute_D.
  induction 1 as [|q L (V0 & I0 & V1 & EF & EP) HL IH]; intros HG.
  - exists 1, (fun _ => 0). split; [lra|]. split; [intros s _; reflexivity|]. cbn. apply derivable_pt_lim_const.
  - destruct (IH (fun q Hq => HG q (or_intror Hq))) as (d1 & e1 & P1 & E1 & D1). destruct (elem_line_pos x h (q_t q) V1) as (d2 & P2 & E2).
    destruct (HG q (or_introl eq_refl) (mmul (edges h (q_t q)) (q_i q))) as (e2 & G1 & G2).
    exists (Rmin d1 d2), (fun s => e2 s * elem_volume x0 (q_t q) + e1 s). split; [apply Rmin_glb_lt; assumption|]. split.
    + intros s Hs. assert (S1 : Rabs s < d1) by (eapply Rlt_le_trans; [exact Hs|apply Rmin_l]). assert (S2 : Rabs s < d2) by (eapply Rlt_le_trans; [exact Hs|apply Rmin_r]).
      specialize (E1 s S1). cbn [map map_all]. rewrite (proj2 (elem_D_some _ _ (edges (fline x h s) (q_t q))) (conj (E2 s S2) eq_refl)).
      destruct (map_all (elem_D (fline x h s)) (map q_t L)) as [D|]; [|discriminate]. cbn [combine map fst snd compute_elastic_energy].
      rewrite edges_line, mmul_line, <- EF, G1, E1. reflexivity.
    + cbn [map sum fold_right]. apply derivable_pt_lim_plus; [|exact D1].
      apply (derivable_pt_lim_scal_right e2 0 _ (elem_volume x0 (q_t q))) in G2. rewrite Rmult_comm. exact G2.
Qed.
