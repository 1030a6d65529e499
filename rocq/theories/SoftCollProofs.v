(** Lemmas about the soft-body collision detection. *)
From Verif Require Import Base ListProofs VecModel VecProofs BvhModel GridModel VolModel BaryModel RigidTypes CollModel HashModel ConProofs MechModel FemModel FemSpec SoftModel SoftSpec SoftCollModel
  Prop_Bary Prop_Contacts ReadyProofs.
Open Scope R_scope.

Notation weights := (R * R * R * R)%type.
Lemma NoDup_app_r_one {A} (l : list A) a : NoDup l -> ~ In a l -> NoDup (l ++ [a]).
Proof. induction l as [|b l IH]; intros HN Ha; cbn; [constructor; [intros []|constructor]|]. inversion HN; subst. constructor; [|apply IH; [assumption|intros H; apply Ha; right; exact H]]. rewrite in_app_iff. intros [H|[H|[]]]; [contradiction|]. subst. apply Ha. left. reflexivity. Qed.
Definition mix3 (a b c : R) (u v w : weights) : weights :=
  let '(u0, u1, u2, u3) := u in let '(v0, v1, v2, v3) := v in let '(w0, w1, w2, w3) := w in
  (a * u0 + b * v0 + c * w0, a * u1 + b * v1 + c * w1, a * u2 + b * v2 + c * w2, a * u3 + b * v3 + c * w3).
Definition quad_vol (X : quad) : R := let '(a, b, c, d) := X in vol6 a b c d.
Lemma bary_volume a b c d p w : compute_barycentric_tetrahedron a b c d p = Some w -> vol6 a b c d <> 0.
Proof.
  unfold compute_barycentric_tetrahedron, vol6, tri_normal. destruct (Rltb_spec 0 (vdot (vsub d a) (vcross (vsub b a) (vsub c a)))) as [|N]; [lra|].
  unfold np_solve3. destruct (Reqb_spec (mdet (make_from_cols (vsub b a) (vsub d a) (vsub c a))) 0) as [|ND]; [discriminate|]. intros _ E. apply ND. rewrite det_cols.
  replace (vdot (vsub c a) (vcross (vsub b a) (vsub d a))) with (- vdot (vsub d a) (vcross (vsub b a) (vsub c a))) by vring. lra.
Qed.
Lemma quad_bary_spec X p w : quad_bary X p = Some w -> quad_vol X <> 0 /\ wsum w = 1 /\ quad_comb X w = p /\ (forall v, wsum v = 1 -> quad_comb X v = p -> v = w).
Proof.
  destruct X as [[[a b] c] d]. cbn [quad_bary quad_vol]. intros H. pose proof (bary_volume _ _ _ _ _ _ H) as HV. split; [exact HV|].
  destruct (C29_tetrahedron a b c d p HV) as (w0 & w1 & w2 & w3 & E & S & C & U). assert (w = (w0, w1, w2, w3)) by congruence. subst w. clear E.
  split; [exact S|]. split; [exact C|]. intros [[[v0 v1] v2] v3] Sv Cv. destruct (U v0 v1 v2 v3 Sv Cv) as (-> & -> & -> & ->). reflexivity.
Qed.
Lemma quad_bary_total X p : quad_vol X <> 0 -> exists w, quad_bary X p = Some w.
Proof.
  destruct X as [[[a b] c] d]. cbn [quad_bary quad_vol]. intros H. destruct (C29_tetrahedron a b c d p H) as (w0 & w1 & w2 & w3 & E & _). eauto.
Qed.
Lemma quad_comb_mix X a b c u v w : quad_comb X (mix3 a b c u v w) = vadd (vadd (vscale a (quad_comb X u)) (vscale b (quad_comb X v))) (vscale c (quad_comb X w)).
Proof. destruct X as [[[x0 x1] x2] x3], u as [[[u0 u1] u2] u3], v as [[[v0 v1] v2] v3], w as [[[w0 w1] w2] w3]. unfold mix3, quad_comb. vring. Qed.
Lemma wsum_mix a b c u v w : wsum (mix3 a b c u v w) = a * wsum u + b * wsum v + c * wsum w.
Proof. destruct u as [[[u0 u1] u2] u3], v as [[[v0 v1] v2] v3], w as [[[w0 w1] w2] w3]. unfold mix3, wsum, w4. ring. Qed.
Lemma quad_comb_interpolate x t w : quad_comb (tet_corners x t) w = interpolate x t w.
Proof. destruct t as [[[a b] c] d], w as [[[w0 w1] w2] w3]. reflexivity. Qed.

(** ** the way to the material space of B and back *)
(** a point of the triangle in material space, taken back with its own barycentric coordinates, is the same point of the
    triangle in the world *)
Lemma round_trip ps X X0 p0s x w : xform_triangle_to_model_space ps X X0 = Some p0s -> in_triangle x p0s -> quad_bary X0 x = Some w -> in_triangle (quad_comb X w) ps.
Proof.
  destruct ps as [[p0 p1] p2]. unfold xform_triangle_to_model_space. destruct (quad_bary X p0) as [w0|] eqn:E0; [|discriminate]. destruct (quad_bary X p1) as [w1|] eqn:E1; [|discriminate].
  destruct (quad_bary X p2) as [w2|] eqn:E2; [|discriminate]. intros H. apply some_eq in H. subst p0s. intros (a & b & c & Ha & Hb & Hc & Hs & Ex) Hw.
  apply quad_bary_spec in E0 as (_ & S0 & C0 & _), E1 as (_ & S1 & C1 & _), E2 as (_ & S2 & C2 & _). apply quad_bary_spec in Hw as (_ & _ & _ & U).
  rewrite <- (U (mix3 a b c w0 w1 w2)).
  - rewrite quad_comb_mix, C0, C1, C2. exists a, b, c. auto.
  - rewrite wsum_mix, S0, S1, S2. lra.
  - rewrite quad_comb_mix. symmetry. exact Ex.
Qed.
Lemma edge_rows_det X : mdet (edge_rows X) = - quad_vol X.
Proof. destruct X as [[[a b] c] d]. unfold edge_rows, quad_vol, vol6, tri_normal. vring. Qed.
Lemma mvec_nonzero A s : mdet A <> 0 -> s <> vzero -> mvec A s <> vzero.
Proof.
  intros HD Hs E. apply Hs. destruct (solve3_spec A vzero HD) as (q & _ & _ & U). rewrite (U s E). symmetry. apply U. destruct A. unfold mvec, vzero. cbn. f_equal; ring.
Qed.
Lemma norm_nonzero n : n <> vzero -> 0 < vnorm n.
Proof.
  intros H. apply sqrt_lt_R0. destruct n as [a b c]. unfold vdot; cbn. destruct (Req_dec a 0), (Req_dec b 0), (Req_dec c 0); try nra. exfalso. apply H. subst. reflexivity.
Qed.
Lemma norm_zero : vnorm vzero = 0.
Proof. unfold vnorm, vdot, vzero; cbn. replace (0 * 0 + 0 * 0 + 0 * 0) with 0 by ring. apply sqrt_0. Qed.
Lemma make_scontact_unit A B tA tB wA wB p n g : vnorm n = 1 -> make_scontact A B tA tB wA wB p n g = Some (mkSC A B tA tB wA wB p n g).
Proof. intros H. unfold make_scontact. rewrite H. destruct (Rltb_spec (1/10) (Rabs (1 - 1))) as [L|_]; [|reflexivity]. rewrite Rminus_diag_eq, Rabs_R0 in L by reflexivity. lra. Qed.

Record contact_facts (P : cparams) (iA iB : nat) (A B : sbody) (gB : grid) (tr : Z * Z) (cp : scontact) (x n : vec3) (kA kB : nat) (elA elB : elem) (ps : vec3 * vec3 * vec3) : Prop := mkFacts {
  cf_A : sc_A cp = iB; cf_B : sc_B cp = iA; cf_tA : sc_tetA cp = kB; cf_tB : sc_tetB cp = kA;
  cf_oA : owner_tet A (fst tr) = Some (kA, elA); cf_oB : owner_tet B (snd tr) = Some (kB, elB);
  cf_ps : surface_triangle A (fst tr) = Some ps;
  cf_volB : quad_vol (tet_corners (s_x B) elB) <> 0; cf_volB0 : quad_vol (tet_corners (s_x0 B) elB) <> 0; cf_volA : quad_vol (tet_corners (s_x A) elA) <> 0;
  cf_wA : wsum (sc_wA cp) = 1; cf_wB : wsum (sc_wB cp) = 1;
  cf_x : interpolate (s_x0 B) elB (sc_wA cp) = x;
  cf_pB : interpolate (s_x B) elB (sc_wA cp) = sc_p cp; cf_pA : interpolate (s_x A) elA (sc_wB cp) = sc_p cp;
  cf_tri : in_triangle (sc_p cp) ps;
  cf_in : grid_is_inside gB x (1/2) = Some true; cf_val : get_value gB x = Some (sc_g cp); cf_env : sc_g cp <= cp_envelope P;
  cf_grad : get_gradient gB x = Some n; cf_n0 : n <> vzero; cf_n1 : vnorm (sc_n cp) = 1;
  cf_n : exists s, mvec (edge_rows (tet_corners (s_x0 B) elB)) s = n /\ sc_n cp = v3_unit (mvec (edge_rows (tet_corners (s_x B) elB)) s) }.
Lemma contact_of_pair_spec P iA iB A B gB tr l cp : contact_of_pair P iA iB A B gB tr = Some l -> In cp l ->
  exists x n kA kB elA elB ps, contact_facts P iA iB A B gB tr cp x n kA kB elA elB ps.
Proof.
  unfold contact_of_pair. destruct (owner_tet A (fst tr)) as [[kA elA]|] eqn:EA; [|discriminate]. destruct (owner_tet B (snd tr)) as [[kB elB]|] eqn:EB; [|discriminate].
  destruct (surface_triangle A (fst tr)) as [ps|] eqn:EP; [|discriminate]. cbn [fst snd]. cbv zeta.
  set (XB := tet_corners (s_x B) elB). set (X0B := tet_corners (s_x0 B) elB).
  destruct (xform_triangle_to_model_space ps XB X0B) as [p0s|] eqn:EX; [|discriminate]. destruct (fw_point _ _ _ p0s) as [x|] eqn:EF; [|discriminate].
  destruct (grid_is_inside gB x (1/2)) as [[|]|] eqn:EI; [|intros H; apply some_eq in H; subst l; intros []|discriminate].
  destruct (get_value gB x) as [phi|] eqn:EV; [|discriminate]. destruct (Rleb_spec phi (cp_envelope P)) as [Henv|]; [|intros H; apply some_eq in H; subst l; intros []].
  destruct (get_gradient gB x) as [n|] eqn:EG; [|discriminate]. destruct (Rltb_spec 0 (vnorm n)) as [Hn|]; [|intros H; apply some_eq in H; subst l; intros []].
  unfold xform_contact_to_world. destruct (quad_bary X0B x) as [wB|] eqn:EWB; [|discriminate]. destruct (quad_bary (tet_corners (s_x A) elA) (quad_comb XB wB)) as [wA|] eqn:EWA; [|discriminate].
  destruct (np_solve3 (edge_rows X0B) n) as [s|] eqn:ES; [|discriminate]. destruct (make_scontact _ _ _ _ _ _ _ _ _) as [c|] eqn:EC; [|discriminate].
  intros H. apply some_eq in H. subst l. intros [<-|[]].
  pose proof (quad_bary_spec _ _ _ EWB) as (HV0 & HS0 & HC0 & _). pose proof (quad_bary_spec _ _ _ EWA) as (HVA & HSA & HCA & _).
  assert (HVB : quad_vol XB <> 0). { destruct ps as [[p0 p1] p2]. unfold xform_triangle_to_model_space in EX. destruct (quad_bary XB p0) as [w|] eqn:E; [|discriminate]. apply quad_bary_spec in E as (E & _). exact E. }
  assert (Hn0 : n <> vzero) by (intros ->; rewrite norm_zero in Hn; lra).
  assert (HD0 : mdet (edge_rows X0B) <> 0) by (rewrite edge_rows_det; lra). assert (HD : mdet (edge_rows XB) <> 0) by (rewrite edge_rows_det; lra).
  destruct (solve3_spec _ n HD0) as (s' & Es & Hs & _). assert (s' = s) by congruence. subst s'.
  assert (Hs0 : s <> vzero). { intros ->. apply Hn0. rewrite <- Hs. clear. destruct (edge_rows X0B). unfold mvec, vzero; cbn. f_equal; ring. }
  assert (H1 : vnorm (v3_unit (mvec (edge_rows XB) s)) = 1) by (apply unit_of_pos, norm_nonzero, mvec_nonzero; auto).
  rewrite make_scontact_unit in EC by exact H1. apply some_eq in EC. subst c.
  exists x, n, kA, kB, elA, elB, ps. constructor; cbn [sc_A sc_B sc_tetA sc_tetB sc_wA sc_wB sc_p sc_n sc_g]; auto.
  - rewrite <- quad_comb_interpolate. exact HC0.
  - symmetry. apply quad_comb_interpolate.
  - rewrite <- quad_comb_interpolate. exact HCA.
  - eapply round_trip; [exact EX| |exact EWB]. exact (C54_stays_on_triangle _ _ _ _ _ EF).
  - exists s. split; [exact Hs|reflexivity].
Qed.

(** ** the pipeline *)
Lemma map_opt_in' {A B} (f : A -> option B) l : forall r b, map_opt f l = Some r -> In b r -> exists a, In a l /\ f a = Some b.
Proof.
  induction l as [|x l IH]; intros r b H Hb; cbn in H; [apply some_eq in H; subst; destruct Hb|]. destruct (f x) as [y|] eqn:E; [|discriminate].
  destruct (map_opt f l) as [r'|] eqn:E'; [|discriminate]. apply some_eq in H. subst r. destruct Hb as [<-|Hb]; [exists x; split; [left; reflexivity|exact E]|].
  destruct (IH r' b eq_refl Hb) as (a & Ha & Ea). exists a. split; [right; exact Ha|exact Ea].
Qed.
Lemma compute_contacts_inv P bs iA iB rs cs cp : soft_compute_contacts P bs iA iB rs = Some cs -> In cp cs ->
  exists A B tr l, nth_error bs iA = Some A /\ nth_error bs iB = Some B /\ In tr rs /\ contact_of_pair P iA iB (fst A) (fst B) (ca_grid (snd B)) tr = Some l /\ In cp l.
Proof.
  unfold soft_compute_contacts. destruct (nth_error bs iA) as [A|] eqn:EA; [|discriminate]. destruct (nth_error bs iB) as [B|] eqn:EB; [|discriminate].
  destruct (map_opt _ rs) as [ls|] eqn:E; [|discriminate]. intros H. apply some_eq in H. subst cs. intros Hin. apply in_concat in Hin as (l & Hl & Hin).
  destruct (map_opt_in' _ _ _ _ E Hl) as (tr & Htr & Et). exists A, B, tr, l. auto.
Qed.
Lemma determination_inv P bs ov cs cp : soft_contact_determination P bs ov = Some cs -> In cp cs ->
  exists k l rs, In (k, l) ov /\ In cp rs /\ (soft_compute_contacts P bs (fst k) (snd k) l = Some rs \/ soft_compute_contacts P bs (snd k) (fst k) (map (fun t => (snd t, fst t)) l) = Some rs).
Proof.
  unfold soft_contact_determination. destruct (map_opt _ ov) as [ls|] eqn:E; [|discriminate]. intros H. apply some_eq in H. subst cs. intros Hin. apply in_concat in Hin as (l & Hl & Hin).
  destruct (map_opt_in' _ _ _ _ E Hl) as ([k rs] & Hk & Ek). cbn [fst snd] in Ek. destruct (soft_compute_contacts P bs (fst k) (snd k) rs) as [c1|] eqn:E1; [|discriminate].
  destruct (soft_compute_contacts P bs (snd k) (fst k) _) as [c2|] eqn:E2; [|discriminate]. apply some_eq in Ek. subst l. apply in_app_or in Hin as [Hin|Hin]; [exists k, rs, c1|exists k, rs, c2]; auto.
Qed.
Lemma same_uid_iff a b : same_uid a b = true <-> sc_A a = sc_A b /\ sc_B a = sc_B b /\ sc_p a = sc_p b.
Proof.
  unfold same_uid. rewrite !andb_true_iff, !Nat.eqb_eq.
  assert (HR : forall u v, Reqb u v = true <-> u = v) by (intros u v; destruct (Reqb_spec u v); split; congruence).
  rewrite !HR. split; [intros ((H1 & H2) & (H3 & H4) & H5); split; [exact H1|split; [exact H2|apply vec3_eq; assumption]]|].
  intros (H1 & H2 & H3). rewrite H3. auto.
Qed.
(** the reduction keeps the order, drops nothing that is not a repetition and keeps no repetition *)
Definition uid (c : scontact) : nat * nat * vec3 := (sc_A c, sc_B c, sc_p c).
Lemma uid_iff a b : same_uid a b = true <-> uid a = uid b.
Proof. rewrite same_uid_iff. unfold uid. split; [intros (-> & -> & ->); reflexivity|intros H; injection H as -> -> ->; auto]. Qed.
Lemma reduction_step cs : forall acc, NoDup (map uid acc) -> let r := fold_left (fun reduced cp => if existsb (same_uid cp) reduced then reduced else reduced ++ [cp]) cs acc in
  NoDup (map uid r) /\ (forall c, In c r -> In c acc \/ In c cs) /\ (forall u, In u (map uid acc) \/ In u (map uid cs) -> In u (map uid r)) /\
  (forall c, In c acc -> In c r).
Proof.
  induction cs as [|c cs IH]; intros acc HN; cbn [fold_left]; [cbv zeta; split; [exact HN|]; split; [auto|]; split; [intros u [H|[]]; exact H|auto]|].
  cbv zeta. destruct (existsb (same_uid c) acc) eqn:E.
  - destruct (IH acc HN) as (H1 & H2 & H3 & H4). split; [exact H1|]. split; [intros a Ha; destruct (H2 a Ha); [auto|right; right; auto]|]. split; [|exact H4].
    intros u [H|[H|H]]; [apply H3; auto| |apply H3; auto]. apply H3. left. apply existsb_exists in E as (a & Ha & Ea). apply uid_iff in Ea. rewrite <- H, Ea. apply in_map. exact Ha.
  - assert (HN' : NoDup (map uid (acc ++ [c]))).
    { rewrite map_app. cbn [map]. apply NoDup_app_r_one; [exact HN|]. intros Hin. apply in_map_iff in Hin as (a & Ea & Ha). assert (existsb (same_uid c) acc = true); [|congruence]. apply existsb_exists. exists a. split; [exact Ha|]. apply uid_iff. auto. }
    destruct (IH _ HN') as (H1 & H2 & H3 & H4). split; [exact H1|]. split; [|split].
    + intros a Ha. destruct (H2 a Ha) as [H|H]; [|right; right; exact H]. apply in_app_or in H as [H|[<-|[]]]; [left; exact H|right; left; reflexivity].
    + intros u H. apply H3. rewrite map_app, in_app_iff. cbn [map]. destruct H as [H|[H|H]]; [auto|left; right; left; exact H|auto].
    + intros a Ha. apply H4. apply in_or_app. left. exact Ha.
Qed.
