(** The well-formedness of soft-body engines is kept by everything that can happen to an engine. *)
From Coq Require Import Permutation.
From Verif Require Import Base ListProofs PolyProofs VecModel VecProofs SolverModel SolverProofs BvhModel GridModel SurfModel VolModel RigidTypes StepModel ConProofs MechModel FemModel FemSpec FemProofs FemProofs2 SoftModel SoftSpec SoftProofs.
Open Scope R_scope.

Lemma name_eqb_eq a b : name_eqb a b = true <-> a = b.
Proof.
  revert b. induction a as [|x a IH]; intros [|y b]; cbn [name_eqb]; try (split; congruence). rewrite andb_true_iff, Nat.eqb_eq, IH. split; [intros [-> ->]; reflexivity|intros H; injection H as -> ->; split; reflexivity].
Qed.
Lemma name_eqb_refl a : name_eqb a a = true. Proof. apply name_eqb_eq. reflexivity. Qed.
Definition same_place (b b' : sbody) : Prop := s_name b' = s_name b /\ s_stage b' = s_stage b /\ s_offset b' = s_offset b /\ s_n b' = s_n b.
Lemma same_place_refl b : same_place b b. Proof. repeat split. Qed.
Lemma layout_same bs bs' : Forall2 same_place bs bs' -> forall s N, layout bs s N -> layout bs' s N.
Proof.
  induction 1 as [|b b' bs bs' (H1 & H2 & H3 & H4) H IH]; intros s N HL; [exact HL|]. cbn [layout] in *. unfold ready in *. rewrite H2, H3, H4.
  destruct (s_stage b); [apply IH; exact HL|apply IH; exact HL|]. destruct HL as [L1 L2]. split; [exact L1|]. apply IH. exact L2.
Qed.
Lemma names_same bs bs' : Forall2 same_place bs bs' -> map s_name bs' = map s_name bs.
Proof. induction 1 as [|b b' bs bs' (H1 & _) H IH]; cbn; congruence. Qed.
Lemma same_place_map f bs : (forall b, same_place b (f b)) -> Forall2 same_place bs (map f bs).
Proof. intros H. induction bs; cbn; constructor; auto. Qed.
Lemma soft_ok_bodies e bs' : soft_ok e -> Forall2 same_place (sg_bodies e) bs' -> Forall body_ok bs' ->
  (forall b n, In b bs' -> s_material b = Some n -> find_material (sg_materials e) n <> None) -> soft_ok (sg_with_bodies e bs').
Proof.
  intros [H1 H2 H3 H4 H5] HS HB HM. constructor; cbn [sg_with_bodies sg_bodies sg_N sg_materials]; try assumption.
  - rewrite (names_same _ _ HS). exact H1.
  - apply (layout_same _ _ HS). exact H2.
Qed.
Lemma soft_ok_upd e n f : soft_ok e -> (forall b, same_place b (f b)) -> (forall b, body_ok b -> body_ok (f b)) ->
  (forall b k, In b (sg_bodies e) -> s_material (f b) = Some k -> s_material b = Some k \/ find_material (sg_materials e) k <> None) -> soft_ok (upd_sbody e n f).
Proof.
  intros HO HS HB HM. apply soft_ok_bodies; [exact HO| | |].
  - apply same_place_map. intros b. destruct (name_eqb (s_name b) n); [apply HS|apply same_place_refl].
  - apply Forall_map. eapply Forall_impl; [|apply (so_bodies e HO)]. intros b Hb. destruct (name_eqb (s_name b) n); [apply HB|]; exact Hb.
  - intros b k Hb Hk. apply in_map_iff in Hb as (c & Ec & Hc). destruct (name_eqb (s_name c) n).
    + subst b. destruct (HM c k Hc Hk) as [H|H]; [apply (so_material e HO c k Hc H)|exact H].
    + subst b. apply (so_material e HO c k Hc Hk).
Qed.
Lemma find_upd_material ms n f k : find_material (map (fun km : name * smaterial => if name_eqb (fst km) n then (fst km, f (snd km)) else km) ms) k =
  match find_material ms k with None => None | Some m => Some (if name_eqb k n then f m else m) end.
Proof.
  induction ms as [|[a m] ms IH]; cbn [map find_material fst snd]; [reflexivity|]. destruct (name_eqb a n) eqn:E1; cbn [find_material]; destruct (name_eqb a k) eqn:E2; auto.
  - apply name_eqb_eq in E2. subst. rewrite E1. reflexivity.
  - apply name_eqb_eq in E2. subst. rewrite E1. reflexivity.
Qed.
Lemma soft_ok_material e n f : soft_ok e -> (forall m, find_material (sg_materials e) n = Some m -> 0 <= sm_rho m /\ 0 <= sm_c m -> 0 <= sm_rho (f m) /\ 0 <= sm_c (f m)) -> soft_ok (upd_material e n f).
Proof.
  intros [H1 H2 H3 H4 H5] Hf. constructor; cbn [upd_material sg_with_materials sg_bodies sg_N sg_materials]; try assumption.
  - intros b k Hb Hk. rewrite find_upd_material. destruct (find_material (sg_materials e) k) eqn:E; [discriminate|]. intros _. apply (H4 b k Hb Hk E).
  - intros k m Hk. rewrite find_upd_material in Hk. destruct (find_material (sg_materials e) k) as [m0|] eqn:E; [|discriminate]. specialize (H5 k m0 E).
    destruct (name_eqb k n) eqn:EN; injection Hk as <-; [|exact H5]. apply name_eqb_eq in EN. subst k. apply Hf; assumption.
Qed.
Lemma find_material_app ms n m k : find_material ms n = None -> find_material (ms ++ [(n, m)]) k = match find_material ms k with Some x => Some x | None => if name_eqb n k then Some m else None end.
Proof.
  intros H. clear H. induction ms as [|[a x] ms IH]; cbn [app find_material]; [reflexivity|]. destruct (name_eqb a k); [reflexivity|]. exact IH.
Qed.

(** ** the mesh kept by create_soft_body *)
Lemma map_opt_Forall {A B} (f : A -> option B) (P : B -> Prop) l r : map_opt f l = Some r -> (forall a b, f a = Some b -> P b) -> Forall P r.
Proof.
  revert r. induction l as [|a l IH]; intros r H HP; cbn [map_opt] in H; [injection H as <-; constructor|].
  destruct (f a) as [b|] eqn:E; cbn in H; [|discriminate]. destruct (map_opt f l) as [r'|] eqn:E2; cbn in H; [|discriminate]. injection H as <-. constructor; [apply (HP a b E)|apply IH; auto].
Qed.
Lemma axis_sort_range V T axis V' T' : axis_sort V T axis = Some (V', T') -> length V' = length V /\ Forall (Forall (fun v => (0 <= v < Z.of_nat (length V))%Z)) T'.
Proof.
  unfold axis_sort. cbv zeta. intros H. destruct (map_opt _ T) as [T1|] eqn:E; [|discriminate]. injection H as <- <-. split.
  - rewrite map_length. unfold argsort. rewrite isort_length, seq_length. reflexivity.
  - assert (F1 : Forall (Forall (fun v => (0 <= v < Z.of_nat (length V))%Z)) T1).
    { eapply map_opt_Forall; [exact E|]. intros row r Hr. eapply map_opt_Forall; [exact Hr|]. intros v w Hw. cbv beta in Hw. destruct (py_get _ v) as [n|] eqn:EP; [|discriminate]. injection Hw as <-.
      assert (Hin : In n (argsort (fun k => INR (nth k (argsort (fun k0 => nth k0 (map (fun p => vdot p (v3_unit axis)) V) 0) (length V)) 0%nat)) (length (map (fun p => vdot p (v3_unit axis)) V)))).
      { unfold py_get in EP. destruct (py_idx _ v) as [k|]; [|discriminate]. eapply nth_error_In. exact EP. }
      unfold argsort in Hin at 1. eapply Permutation_in in Hin; [|apply Permutation_sym, isort_perm]. apply in_seq in Hin. rewrite map_length in Hin. lia. }
    apply Forall_map. apply Forall_forall. intros k Hk. rewrite Forall_forall in F1. destruct (nth_in_or_default k T1 []) as [Hin|E0]; [apply F1; exact Hin|rewrite E0; constructor].
Qed.
Lemma map_all_Forall {A B} (f : A -> option B) (P : A -> Prop) (Q : B -> Prop) l r : map_all f l = Some r -> (forall a b, P a -> f a = Some b -> Q b) -> Forall P l -> Forall Q r.
Proof.
  revert r. induction l as [|a l IH]; intros r H HP HF; cbn [map_all] in H; [injection H as <-; constructor|]. inversion HF; subst.
  destruct (f a) as [b|] eqn:E; [|discriminate]. destruct (map_all f l) as [r'|] eqn:E2; [|discriminate]. injection H as <-. constructor; [apply (HP a b); assumption|apply IH; auto].
Qed.
Lemma mesh_valid V T axis V' T' Te : axis_sort V T axis = Some (V', T') -> map_all elem_of_row T' = Some Te -> valid_mesh (length V') Te.
Proof.
  intros H E. destruct (axis_sort_range V T axis V' T' H) as [HL HF]. rewrite HL. unfold valid_mesh. eapply map_all_Forall; [exact E| |exact HF].
  intros row t HR Ht a. unfold elem_of_row in Ht. destruct row as [|i [|j [|k [|m [|? ?]]]]]; try discriminate. injection Ht as <-.
  inversion HR as [|? ? Hi R1]; subst. inversion R1 as [|? ? Hj R2]; subst. inversion R2 as [|? ? Hk R3]; subst. inversion R3 as [|? ? Hm _]; subst.
  unfold node. destruct a as [|[|[|a]]]; lia.
Qed.
Lemma surface_valid N T : valid_mesh N T -> Forall (fun t : nat * nat * nat => let '(i, j, k) := t in (i < N /\ j < N /\ k < N)%nat) (surface_tris T).
Proof.
  intros HV. unfold surface_tris. cbv zeta. apply Forall_map. apply Forall_forall. intros [[[a b] c] [e v]] Hin. cbn [fst].
  unfold compute_surface in Hin. apply in_concat in Hin as (l & Hl & Hin). apply in_map_iff in Hl as ([e' t] & <- & Ht). apply in_combine_r in Ht. cbn [fst snd] in Hin.
  apply in_map_iff in Ht as ([[[i j] k] m] & <- & Ht). unfold valid_mesh in HV. rewrite Forall_forall in HV. specialize (HV _ Ht).
  pose proof (HV 0%nat) as H0. pose proof (HV 1%nat) as H1. pose proof (HV 2%nat) as H2. pose proof (HV 3%nat) as H3. cbn [node] in H0, H1, H2, H3.
  cbn [tet_of_elem surface_of] in Hin. rewrite !in_app_iff in Hin.
  assert (X : forall v0 f (q : tri * (nat * nat)), In q (match N_at (compute_neighbors (map tet_of_elem T)) e' v0 with Some n => if (n =? -1)%Z then [(f, (e', v0))] else [] | None => [] end) -> fst q = f).
  { intros v0 f q Hq. clear Hin. destruct (N_at (compute_neighbors (map tet_of_elem T)) e' v0) as [n|]; [|case (in_nil Hq)]. destruct (n =? -1)%Z; [|case (in_nil Hq)]. destruct Hq as [<-|[]]. reflexivity. }
  destruct Hin as [H|[H|[H|H]]]; apply X in H; cbn [fst] in H; injection H as -> -> ->; rewrite !Nat2Z.id; auto.
Qed.
Lemma layout_app bs : forall s N b, layout bs s N -> layout (bs ++ [b]) s (if ready b then N + s_n b else N)%nat <-> (ready b = true -> s_offset b = N).
Proof.
  induction bs as [|a bs IH]; intros s N b H; cbn [app layout] in *.
  - subst. destruct (ready b); (split; [intros HH HR; try discriminate; apply HH|intros HH; try split; auto]).
  - destruct (ready a); [|apply IH; exact H]. destruct H as [H1 H2]. specialize (IH _ _ b H2). tauto.
Qed.
Lemma find_sbody_none e n : find_sbody e n = None -> ~ In n (map s_name (sg_bodies e)).
Proof.
  unfold find_sbody. intros H Hin. apply in_map_iff in Hin as (b & <- & Hb). apply (find_none _ _ H) in Hb. cbn in Hb. rewrite name_eqb_refl in Hb. discriminate.
Qed.
Lemma soft_ok_append e b : soft_ok e -> find_sbody e (s_name b) = None -> body_ok b -> s_material b = None -> (ready b = true -> s_offset b = sg_N e) ->
  soft_ok (mkSE (sg_materials e) (sg_lib e) (sg_params e) (sg_bodies e ++ [b]) (sg_contacts e) (if ready b then sg_N e + s_n b else sg_N e) (sg_stepper e)).
Proof.
  intros [H1 H2 H3 H4 H5] HF HB HM HL. constructor; cbn [sg_bodies sg_N sg_materials].
  - rewrite map_app. cbn [map]. apply NoDup_app_intro; [exact H1|constructor; [intros []|constructor]|]. intros x Hx [<-|[]]. exact (find_sbody_none e _ HF Hx).
  - apply layout_app; assumption.
  - apply Forall_app. split; [exact H3|]. constructor; [exact HB|constructor].
  - intros b' n Hb Hn. apply in_app_or in Hb as [Hb|[<-|[]]]; [apply (H4 b' n Hb Hn)|congruence].
  - exact H5.
Qed.

(** ** every call keeps the engine well-formed *)
Definition outcome_engine (o : soutcome) : sengine := match o with SDone e => e | SRaised e => e end.
Lemma body_ok_registered n : body_ok (sb_registered n).
Proof. constructor; cbn; try constructor; discriminate. Qed.
Lemma sg_with_bodies_snoc e b : ready b = false -> sg_with_bodies e (sg_bodies e ++ [b]) =
  mkSE (sg_materials e) (sg_lib e) (sg_params e) (sg_bodies e ++ [b]) (sg_contacts e) (if ready b then sg_N e + s_n b else sg_N e) (sg_stepper e).
Proof. intros ->. reflexivity. Qed.
Lemma create_ok axis e n V T : soft_ok e -> soft_ok (outcome_engine (create_soft_body axis e n V T)).
Proof.
  intros HO. unfold create_soft_body. destruct (find_sbody e n) eqn:EF; [exact HO|]. cbv zeta.
  assert (H0 : soft_ok (sg_with_bodies e (sg_bodies e ++ [sb_registered n]))).
  { rewrite sg_with_bodies_snoc by reflexivity. apply soft_ok_append; [exact HO|exact EF|apply body_ok_registered|reflexivity|discriminate]. }
  destruct (axis V) as [ax|]; [|exact H0]. destruct (axis_sort V T ax) as [[V' T']|] eqn:EA; [|exact H0]. destruct (map_all elem_of_row T') as [Te|] eqn:ET; [|exact H0].
  pose proof (mesh_valid _ _ _ _ _ _ EA ET) as HV.
  destruct (compute_inverse_D0 _ Te) as [invD0|] eqn:EI; cbn [outcome_engine].
  - match goal with |- soft_ok (mkSE _ _ _ (_ ++ [?b]) _ _ _) => change (soft_ok (mkSE (sg_materials e) (sg_lib e) (sg_params e) (sg_bodies e ++ [b]) (sg_contacts e) (if ready b then sg_N e + s_n b else sg_N e) (sg_stepper e))); apply (soft_ok_append e b) end;
      [exact HO|exact EF| |reflexivity|reflexivity].
    constructor; cbn [s_n s_T s_vol0 s_x0 s_gradN0 s_invD0 s_dirichlet s_surface s_traction s_M s_C]; try reflexivity; try (constructor; fail); try discriminate.
    + exact HV.
    + intros _. exact EI.
    + apply surface_valid. exact HV.
  - rewrite sg_with_bodies_snoc by reflexivity. apply soft_ok_append; [exact HO|exact EF| |reflexivity|discriminate].
    constructor; cbn [s_n s_T s_vol0 s_x0 s_gradN0 s_invD0 s_dirichlet s_surface s_traction s_M s_C ready s_stage]; try reflexivity; try (constructor; fail); try discriminate. exact HV.
Qed.
Lemma body_ok_same_mesh b b' : body_ok b -> s_n b' = s_n b -> s_T b' = s_T b -> s_vol0 b' = s_vol0 b -> s_x0 b' = s_x0 b -> s_gradN0 b' = s_gradN0 b -> s_stage b' = s_stage b -> s_invD0 b' = s_invD0 b ->
  s_surface b' = s_surface b -> s_lumped b' = s_lumped b ->
  Forall (fun d => (d_idx d < s_n b)%nat /\ d_value d = s_x0 b (d_idx d)) (s_dirichlet b') -> Forall (fun t => (tr_i t < s_n b /\ tr_j t < s_n b /\ tr_k t < s_n b)%nat) (s_traction b') ->
  (forall M, s_M b' = Some M -> s_M b = Some M \/ exists rho, 0 <= rho /\ M = compute_mass_element_array rho (s_vol0 b) (s_lumped b)) ->
  (forall C, s_C b' = Some C -> s_C b = Some C \/ exists c, 0 <= c /\ C = compute_damping_element_array c (s_vol0 b) (s_lumped b)) -> body_ok b'.
Proof.
  intros [B1 B2 B3 B4 B5 B6 B7 BL B8 B9] E1 E2 E3 E4 E5 E6 E7 E8 E9 HD HT HM HC. unfold ready in B4. constructor; unfold ready; rewrite ?E1, ?E2, ?E3, ?E4, ?E5, ?E6, ?E7, ?E8, ?E9; try assumption.
  - intros M H. destruct (HM M H) as [H'|H']; [apply B8; exact H'|exact H'].
  - intros C H. destruct (HC C H) as [H'|H']; [apply B9; exact H'|exact H'].
Qed.
Ltac same_mesh HB := eapply body_ok_same_mesh; [exact HB|reflexivity|reflexivity|reflexivity|reflexivity|reflexivity|reflexivity|reflexivity|reflexivity|reflexivity|
  try exact (bo_dir _ HB)|try exact (bo_trac _ HB)|try (intros ? H; left; exact H)|try (intros ? H; left; exact H)].
Lemma dirichlet_new_ok phi b : Forall (fun d => (d_idx d < s_n b)%nat /\ d_value d = s_x0 b (d_idx d)) (dirichlet_new phi b).
Proof.
  unfold dirichlet_new. apply Forall_map. apply Forall_forall. intros i Hi. apply filter_In in Hi as [Hi _]. apply in_seq in Hi. cbn. split; [lia|reflexivity].
Qed.
Lemma traction_new_ok phi load b : body_ok b -> Forall (fun t => (tr_i t < s_n b /\ tr_j t < s_n b /\ tr_k t < s_n b)%nat) (traction_new phi load b).
Proof.
  intros HB. unfold traction_new. apply Forall_map. apply Forall_forall. intros [[i j] k] Hi. apply filter_In in Hi as [Hi _]. pose proof (bo_surface b HB) as H. rewrite Forall_forall in H. exact (H _ Hi).
Qed.
Lemma srun_ok eigh axis c e : soft_ok e -> soft_ok (outcome_engine (srun eigh axis c e)).
Proof.
  intros HO. destruct c; cbn [srun].
  - apply create_ok. exact HO.
  - unfold create_dirichlet_conditions. destruct (find_sbody e n) as [b|]; [|exact HO]. destruct (s_stage b); try exact HO; cbn [outcome_engine]; (apply soft_ok_upd; [exact HO|intros; repeat split| |intros ? ? ? H; left; exact H]);
      intros b' HB; same_mesh HB; cbn [sb_with_conditions s_dirichlet]; (apply Forall_app; split; [apply (bo_dir _ HB)|apply dirichlet_new_ok]).
  - unfold create_traction_conditions. destruct (find_sbody e n) as [b|]; [|exact HO]. destruct (ready b); [|exact HO]. cbn [outcome_engine]. (apply soft_ok_upd; [exact HO|intros; repeat split| |intros ? ? ? H; left; exact H]).
      intros b' HB; same_mesh HB; cbn [sb_with_conditions s_traction]; (apply Forall_app; split; [apply (bo_trac _ HB)|apply traction_new_ok; exact HB]).
  - unfold soft_set_velocity. destruct (find_sbody e n) as [b|]; [|exact HO]. destruct (ready b); [|exact HO]. cbn [outcome_engine]. (apply soft_ok_upd; [exact HO|intros; repeat split| |intros ? ? ? H; left; exact H]). intros b' HB; same_mesh HB.
  - unfold set_spatial_coordinates. destruct (find_sbody e n) as [b|]; [|exact HO]. destruct (ready b && _); [|exact HO]. cbn [outcome_engine]. (apply soft_ok_upd; [exact HO|intros; repeat split| |intros ? ? ? H; left; exact H]). intros b' HB; same_mesh HB.
  - unfold soft_set_type. destruct (find_sbody e n) as [b|]; [|exact HO]. destruct fixed; [|exact HO]. cbn [outcome_engine]. (apply soft_ok_upd; [exact HO|intros; repeat split| |intros ? ? ? H; left; exact H]). intros b' HB; same_mesh HB.
  - unfold soft_create_interaction. destruct (find_material _ A); [|exact HO]. destruct (find_material _ B); [|exact HO]. destruct (soft_get_interaction _ _ _); [exact HO|]. destruct (Rltb mu 0); [exact HO|]. destruct HO. constructor; assumption.
  - unfold create_material. destruct (find_material (sg_materials e) m) eqn:EM; [exact HO|]. cbn [outcome_engine]. destruct HO as [H1 H2 H3 H4 H5]. constructor; cbn [sg_with_materials sg_bodies sg_N sg_materials]; try assumption.
    + intros b k Hb Hk. rewrite (find_material_app _ _ _ _ EM). specialize (H4 b k Hb Hk). destruct (find_material (sg_materials e) k); [discriminate|]. intros _. apply H4. reflexivity.
    + intros k m'. rewrite (find_material_app _ _ _ _ EM). specialize (H5 k). destruct (find_material (sg_materials e) k); [apply H5|]. destruct (name_eqb m k); [|discriminate]. intros H. injection H as <-. cbn. lra.
  - unfold soft_set_material. destruct (find_sbody e n) as [b|]; [|exact HO]. destruct (find_material (sg_materials e) m) as [mt|] eqn:EM; [|exact HO]. destruct (so_constants e HO m mt EM) as [P1 P2].
    destruct (s_stage b); cbn [outcome_engine]; (apply soft_ok_upd; [exact HO|intros; repeat split| |intros ? ? ? H; right; cbn in H; injection H as <-; congruence]);
      intros b' HB; same_mesh HB; cbn [sb_with_material s_M s_C]; intros X HX; right; injection HX as <-; eauto.
  - unfold set_elasticity. destruct (find_material (sg_materials e) m) as [mt|] eqn:EM; [|exact HO]. destruct (Rleb E 0); [exact HO|]. destruct (_ || _)%bool; [exact HO|]. apply soft_ok_material; [exact HO|]. intros m0 _ H. exact H.
  - unfold set_viscosity. destruct (find_material (sg_materials e) m) as [mt|] eqn:EM; [|exact HO]. destruct (Rltb c 0) eqn:EC; [exact HO|]. apply soft_ok_material; [exact HO|]. intros m0 _ [H1 H2]. cbn. split; [exact H1|]. apply Rltb_false in EC. lra.
  - unfold set_mass_density. destruct (find_material (sg_materials e) m) as [mt|] eqn:EM; [|exact HO]. destruct (Rltb rho 0) eqn:EC; [exact HO|]. apply soft_ok_material; [exact HO|]. intros m0 _ [H1 H2]. cbn. split; [|exact H2]. apply Rltb_false in EC. lra.
  - unfold set_constitutive_model. destruct (find_material (sg_materials e) m) as [mt|] eqn:EM; [|exact HO]. apply soft_ok_material; [exact HO|]. intros m0 _ H. exact H.
  - unfold soft_set_gravity. destruct (find_sbody e n) as [b|]; [|exact HO]. cbn [outcome_engine]. (apply soft_ok_upd; [exact HO|intros; repeat split| |intros ? ? ? H; left; exact H]). intros b' HB; same_mesh HB.
Qed.
Lemma moved_ok b x u : body_ok b -> body_ok (moved b x u). Proof. intros HB. same_mesh HB. Qed.
Lemma integrate_ok e dt x up q : soft_ok e -> soft_ok (integrate e dt x up q).
Proof.
  intros HO. assert (E : integrate e dt x up q = sg_with_bodies e (sg_bodies (integrate e dt x up q))) by reflexivity. rewrite E, integrate_bodies. cbv zeta. apply soft_ok_bodies; [exact HO| | |].
  - apply same_place_map. intros b. repeat split.
  - apply Forall_map. eapply Forall_impl; [|apply (so_bodies e HO)]. intros b Hb. apply moved_ok. exact Hb.
  - intros b n Hb Hn. apply in_map_iff in Hb as (c & <- & Hc). apply (so_material e HO c n Hc Hn).
Qed.
Lemma soft_ok_same e e' : soft_ok e -> sg_bodies e' = sg_bodies e -> sg_N e' = sg_N e -> sg_materials e' = sg_materials e -> soft_ok e'.
Proof. intros [H1 H2 H3 H4 H5] E1 E2 E3. constructor; rewrite ?E1, ?E2, ?E3; assumption. Qed.
Lemma step_ok cd sv dt e : soft_ok e -> soft_ok (outcome_engine (soft_step cd sv dt e)).
Proof.
  intros HO. unfold soft_step. destruct (sg_stepper e) as [[dimW W]|]; [|exact HO]. destruct (negb (forallb ready (sg_bodies e))); [exact HO|].
  destruct (elastic_forces _ e) as [Fe|]; [|exact HO]. destruct (traction_forces _ e) as [Ft|]; [|exact HO]. destruct (damping_forces _ e) as [Fd|]; [|exact HO]. destruct (external_forces e) as [Fext|]; [|exact HO].
  destruct (negb _); [exact HO|]. destruct (cd e) as [cs|]; [|exact HO].
  assert (H1 : soft_ok (sg_with_contacts e cs)) by (apply (soft_ok_same e); auto).
  assert (TK : forall e0, soft_ok e0 -> soft_ok (sg_tick e0)) by (intros e0 H; apply (soft_ok_same e0); auto).
  destruct cs as [|c cs]; [apply TK, integrate_ok, H1|].
  destruct (soft_jacobian _) as [J|]; [|exact H1]. destruct (sq_pre (sg_params e)); [exact H1|]. destruct (soft_friction _) as [mu|]; [|exact H1].
  destruct (contact_solve _ _ _ _ _ _ _ _ _) as [sol|]; [|exact H1].
  destruct (sq_post (sg_params e)); [|apply TK, integrate_ok, H1].
  destruct (soft_post_stabilization _ _ _ _) as [e3|] eqn:EP; [|apply integrate_ok, H1]. apply post_some in EP. subst e3. apply TK, integrate_ok, H1.
Qed.
Theorem reach_ok eigh axis e : soft_reach eigh axis e -> soft_ok e.
Proof.
  induction 1 as [|e c e' H IH HC|e P H IH|inv e W H IH HN HI|cd sv dt e e' H IH HC].
  - constructor; cbn [soft_engine_init sg_bodies sg_N sg_materials map].
    + constructor.
    + reflexivity.
    + constructor.
    + intros b n [].
    + intros n m. cbn [find_material]. destruct (name_eqb default_name n); [|discriminate]. intros H. injection H as <-. cbn. lra.
  - pose proof (srun_ok eigh axis c e IH) as HH. destruct HC as [HC|HC]; rewrite HC in HH; exact HH.
  - apply (soft_ok_same e); auto.
  - apply (soft_ok_same e); auto.
  - pose proof (step_ok cd sv dt e IH) as HH. destruct HC as [HC|HC]; rewrite HC in HH; exact HH.
Qed.
