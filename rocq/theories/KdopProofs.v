From Verif Require Import Base BvhModel BvhSpec.
Open Scope R_scope.

(** ** AABB *)
Ltac rbool := repeat match goal with
  | H : context [Rltb ?a ?b] |- _ => destruct (Rltb_spec a b)
  | |- context [Rltb ?a ?b] => destruct (Rltb_spec a b)
  end.
Lemma any_lt_false a b : any_lt a b = false <-> v_le b a.
Proof. unfold any_lt, v_le. rewrite !orb_false_iff, !Rltb_false. tauto. Qed.
Lemma overlap_le a b d : aabb_is_overlap a b d = true <->
  v_le (bx_min (grow_box b d)) (bx_max (grow_box a d)) /\ v_le (bx_min (grow_box a d)) (bx_max (grow_box b d)).
Proof.
  unfold aabb_is_overlap. destruct (Reqb_spec d 0) as [->|N]; cbn [negb]; rewrite negb_true_iff, orb_false_iff, !any_lt_false;
    unfold grow_box, v_le, vaddc, vsubc; cbn; intuition lra.
Qed.
Lemma box_meet a b : valid_box a -> valid_box b ->
  (v_le (bx_min b) (bx_max a) /\ v_le (bx_min a) (bx_max b)) <-> exists p, in_box p a /\ in_box p b.
Proof.
  unfold valid_box, in_box, v_le. intros Ha Hb. split.
  - intros [H1 H2]. exists (vmax2 (bx_min a) (bx_min b)). unfold vmax2; cbn.
    repeat split; auto using Rmax_l, Rmax_r; apply Rmax_lub; intuition lra.
  - intros (p & H1 & H2). intuition lra.
Qed.
Lemma grow_valid a d : 0 <= d -> valid_box a -> valid_box (grow_box a d).
Proof. unfold valid_box, v_le, grow_box; cbn; intros; repeat split; lra. Qed.

Lemma fold_vmax_ge t : forall a p, p = a \/ In p t -> v_le p (fold_left vmax2 t a).
Proof.
  assert (M : forall t0 a, v_le a (fold_left vmax2 t0 a)).
  { induction t0 as [|b t0 IH]; intros a; cbn. unfold v_le; repeat split; lra.
    specialize (IH (vmax2 a b)). unfold v_le in *. cbn in IH.
    pose proof (Rmax_l (vx a) (vx b)); pose proof (Rmax_l (vy a) (vy b)); pose proof (Rmax_l (vz a) (vz b)). repeat split; lra. }
  induction t as [|b t IH]; intros a p H; cbn.
  - destruct H as [->|[]]. unfold v_le; repeat split; lra.
  - destruct H as [->|[->|H]].
    + apply (M (b :: t)).
    + specialize (M t (vmax2 a p)). unfold v_le in *. cbn in M.
      pose proof (Rmax_r (vx a) (vx p)); pose proof (Rmax_r (vy a) (vy p)); pose proof (Rmax_r (vz a) (vz p)). repeat split; lra.
    + apply IH; auto.
Qed.
Lemma fold_vmin_le t : forall a p, p = a \/ In p t -> v_le (fold_left vmin2 t a) p.
Proof.
  assert (M : forall t0 a, v_le (fold_left vmin2 t0 a) a).
  { induction t0 as [|b t0 IH]; intros a; cbn. unfold v_le; repeat split; lra.
    specialize (IH (vmin2 a b)). unfold v_le in *. cbn in IH.
    pose proof (Rmin_l (vx a) (vx b)); pose proof (Rmin_l (vy a) (vy b)); pose proof (Rmin_l (vz a) (vz b)). repeat split; lra. }
  induction t as [|b t IH]; intros a p H; cbn.
  - destruct H as [->|[]]. unfold v_le; repeat split; lra.
  - destruct H as [->|[->|H]].
    + apply (M (b :: t)).
    + specialize (M t (vmin2 a p)). unfold v_le in *. cbn in M.
      pose proof (Rmin_r (vx a) (vx p)); pose proof (Rmin_r (vy a) (vy p)); pose proof (Rmin_r (vz a) (vz p)). repeat split; lra.
    + apply IH; auto.
Qed.
Lemma fold_vmax_attained t : forall a,
  (exists p, (p = a \/ In p t) /\ vx p = vx (fold_left vmax2 t a)) /\
  (exists p, (p = a \/ In p t) /\ vy p = vy (fold_left vmax2 t a)) /\
  (exists p, (p = a \/ In p t) /\ vz p = vz (fold_left vmax2 t a)).
Proof.
  induction t as [|b t IH]; intros a; cbn [fold_left].
  - repeat split; exists a; auto.
  - destruct (IH (vmax2 a b)) as ((p1 & H1 & E1) & (p2 & H2 & E2) & (p3 & H3 & E3)).
    repeat split.
    + destruct H1 as [->|]; [|exists p1; cbn; auto]. rewrite <- E1. cbn. unfold Rmax. destruct (Rle_dec _ _); [exists b|exists a]; cbn; auto.
    + destruct H2 as [->|]; [|exists p2; cbn; auto]. rewrite <- E2. cbn. unfold Rmax. destruct (Rle_dec _ _); [exists b|exists a]; cbn; auto.
    + destruct H3 as [->|]; [|exists p3; cbn; auto]. rewrite <- E3. cbn. unfold Rmax. destruct (Rle_dec _ _); [exists b|exists a]; cbn; auto.
Qed.
Lemma fold_vmin_attained t : forall a,
  (exists p, (p = a \/ In p t) /\ vx p = vx (fold_left vmin2 t a)) /\
  (exists p, (p = a \/ In p t) /\ vy p = vy (fold_left vmin2 t a)) /\
  (exists p, (p = a \/ In p t) /\ vz p = vz (fold_left vmin2 t a)).
Proof.
  induction t as [|b t IH]; intros a; cbn [fold_left].
  - repeat split; exists a; auto.
  - destruct (IH (vmin2 a b)) as ((p1 & H1 & E1) & (p2 & H2 & E2) & (p3 & H3 & E3)).
    repeat split.
    + destruct H1 as [->|]; [|exists p1; cbn; auto]. rewrite <- E1. cbn. unfold Rmin. destruct (Rle_dec _ _); [exists a|exists b]; cbn; auto.
    + destruct H2 as [->|]; [|exists p2; cbn; auto]. rewrite <- E2. cbn. unfold Rmin. destruct (Rle_dec _ _); [exists a|exists b]; cbn; auto.
    + destruct H3 as [->|]; [|exists p3; cbn; auto]. rewrite <- E3. cbn. unfold Rmin. destruct (Rle_dec _ _); [exists a|exists b]; cbn; auto.
Qed.
Lemma create_bounds vs b : aabb_create_from_vertices vs = Some b ->
  (forall p, In p vs -> in_box p b) /\
  (exists p, In p vs /\ vx p = vx (bx_min b)) /\ (exists p, In p vs /\ vy p = vy (bx_min b)) /\ (exists p, In p vs /\ vz p = vz (bx_min b)) /\
  (exists p, In p vs /\ vx p = vx (bx_max b)) /\ (exists p, In p vs /\ vy p = vy (bx_max b)) /\ (exists p, In p vs /\ vz p = vz (bx_max b)).
Proof.
  destruct vs as [|a t]; cbn; [discriminate|]. intros E; injection E as <-; cbn [bx_min bx_max].
  split; [|].
  - intros p H. split; [apply fold_vmin_le|apply fold_vmax_ge]; destruct H; auto.
  - destruct (fold_vmin_attained t a) as ((p1 & H1 & E1) & (p2 & H2 & E2) & (p3 & H3 & E3)).
    destruct (fold_vmax_attained t a) as ((p4 & H4 & E4) & (p5 & H5 & E5) & (p6 & H6 & E6)).
    repeat split; [exists p1|exists p2|exists p3|exists p4|exists p5|exists p6]; split; auto; firstorder.
Qed.
Lemma create_valid vs b : aabb_create_from_vertices vs = Some b -> valid_box b.
Proof.
  intros E. destruct (create_bounds _ _ E) as [H _]. destruct vs as [|a t]; [discriminate|].
  destruct (H a (or_introl eq_refl)) as [H1 H2]. unfold valid_box, v_le in *. repeat split; lra.
Qed.

(** ** extended reals *)
Lemma e_ltb_le a b : e_ltb a b = false <-> e_le b a.
Proof. destruct a, b; cbn; split; intros; try discriminate; try contradiction; auto; [apply Rltb_false; auto|apply Rltb_false; auto]. Qed.
Lemma e_le_refl a : e_le a a. Proof. destruct a; cbn; auto; lra. Qed.
Lemma e_le_trans a b c : e_le a b -> e_le b c -> e_le a c.
Proof. destruct a, b, c; cbn; intros; auto; try contradiction; lra. Qed.
Lemma e_le_total a b : e_le a b \/ e_le b a.
Proof. destruct a, b; cbn; auto; lra. Qed.
Lemma e_ltb_true_le a b : e_ltb a b = true -> e_le a b.
Proof. intros H. destruct (e_le_total a b); auto. apply e_ltb_le in H0. congruence. Qed.
Lemma e_min_l a b : e_le (e_min a b) a.
Proof. unfold e_min. destruct (e_ltb b a) eqn:E; [apply e_ltb_true_le; auto|apply e_le_refl]. Qed.
Lemma e_min_r a b : e_le (e_min a b) b.
Proof. unfold e_min. destruct (e_ltb b a) eqn:E; [apply e_le_refl|apply e_ltb_le; auto]. Qed.
Lemma e_max_l a b : e_le a (e_max a b).
Proof. unfold e_max. destruct (e_ltb a b) eqn:E; [apply e_ltb_true_le; auto|apply e_le_refl]. Qed.
Lemma e_max_r a b : e_le b (e_max a b).
Proof. unfold e_max. destruct (e_ltb a b) eqn:E; [apply e_le_refl|apply e_ltb_le; auto]. Qed.
Lemma e_min_glb a b c : e_le c a -> e_le c b -> e_le c (e_min a b).
Proof. unfold e_min. destruct (e_ltb b a); auto. Qed.
Lemma e_max_lub a b c : e_le a c -> e_le b c -> e_le (e_max a b) c.
Proof. unfold e_max. destruct (e_ltb a b); auto. Qed.

(** ** slabs *)
Lemma slab_sub_refl a : slab_sub a a. Proof. split; apply e_le_refl. Qed.
Lemma slab_sub_trans a b c : slab_sub a b -> slab_sub b c -> slab_sub a c.
Proof. intros [H1 H2] [K1 K2]; split; eapply e_le_trans; eauto. Qed.
Lemma slab_disjoint_false a b : slab_disjoint a b = false <-> e_le (lower b) (upper a) /\ e_le (lower a) (upper b).
Proof. unfold slab_disjoint. rewrite orb_false_iff, !e_ltb_le. tauto. Qed.
Lemma slab_disjoint_sym a b : slab_disjoint a b = slab_disjoint b a.
Proof. unfold slab_disjoint. apply orb_comm. Qed.
Lemma slabs_overlap_iff A : forall B, slabs_overlap A B = true <->
  forall k a b, nth_error A k = Some a -> nth_error B k = Some b -> e_le (lower b) (upper a) /\ e_le (lower a) (upper b).
Proof.
  induction A as [|a A IH]; intros B; [cbn; split; auto; intros _ [|k]; discriminate|].
  destruct B as [|b B]; [cbn; split; auto; intros _ [|k]; cbn; discriminate|]. cbn [slabs_overlap].
  destruct (slab_disjoint a b) eqn:E.
  - split; [discriminate|]. intros H. specialize (H 0%nat a b eq_refl eq_refl). apply slab_disjoint_false in H. congruence.
  - apply slab_disjoint_false in E. rewrite IH. split.
    + intros H [|k] x y; cbn; [intros H1 H2; injection H1 as <-; injection H2 as <-; auto|apply H].
    + intros H k. apply (H (S k)).
Qed.
Lemma slabs_overlap_sym A : forall B, slabs_overlap A B = slabs_overlap B A.
Proof.
  induction A as [|a A IH]; intros [|b B]; cbn; auto. rewrite slab_disjoint_sym, IH. auto.
Qed.
Lemma slabs_overlap_mono A A' B B' : kdop_sub A A' -> kdop_sub B B' -> slabs_overlap A B = true -> slabs_overlap A' B' = true.
Proof.
  intros HA. revert B B'. induction HA as [|a a' A A' Ha HA IH]; intros B B' HB; [destruct B'; auto|].
  destruct HB as [|b b' B B' Hb HB]; [auto|]. cbn [slabs_overlap].
  destruct (slab_disjoint a b) eqn:E; [discriminate|]. intros H. apply slab_disjoint_false in E.
  assert (E' : slab_disjoint a' b' = false).
  { apply slab_disjoint_false. destruct Ha, Hb, E. split.
    - eapply e_le_trans; [|eapply e_le_trans]; eauto.
    - eapply e_le_trans; [|eapply e_le_trans]; eauto. }
  rewrite E'. eapply IH; eauto.
Qed.
Lemma slabs_overlap_common D p A B : in_kdop D p A -> in_kdop D p B -> slabs_overlap A B = true.
Proof.
  intros HA. revert B. induction HA as [|d a D A [H1 H2] HA IH]; intros B HB; [auto|].
  inversion HB as [|d' b D' B' [K1 K2] HB']; subst. cbn [slabs_overlap].
  assert (E : slab_disjoint a b = false).
  { apply slab_disjoint_false; split; eapply e_le_trans; eauto. }
  rewrite E; auto.
Qed.
Lemma kdop_sub_refl A : kdop_sub A A.
Proof. induction A; constructor; auto using slab_sub_refl. Qed.
Lemma kdop_sub_trans A B C : kdop_sub A B -> kdop_sub B C -> kdop_sub A C.
Proof.
  intros H. revert C. induction H as [|a b A B Hab H IH]; intros C HC; inversion HC; subst; constructor.
  - eapply slab_sub_trans; eauto.
  - apply IH; auto.
Qed.
Lemma kdop_sub_length A B : kdop_sub A B -> length A = length B.
Proof. induction 1; cbn; auto. Qed.
Lemma slabs_union_length A : forall B, length A = length B -> length (slabs_union A B) = length A.
Proof. induction A; intros [|b B] H; cbn in *; auto; try lia. Qed.
Lemma slabs_union_ub A : forall B, length A = length B -> kdop_sub A (slabs_union A B) /\ kdop_sub B (slabs_union A B).
Proof.
  induction A as [|a A IH]; intros [|b B] H; cbn in *; try lia; [split; constructor|].
  destruct (IH B) as [H1 H2]; [lia|]. split; constructor; auto; split; cbn; auto using e_min_l, e_min_r, e_max_l, e_max_r.
Qed.
Lemma slabs_union_lub A : forall B C, kdop_sub A C -> kdop_sub B C -> kdop_sub (slabs_union A B) C.
Proof.
  induction A as [|a A IH]; intros B C HA HB; [inversion HA; constructor|].
  inversion HA as [|? c ? C' Ha HA']; subst. inversion HB as [|b ? B' ? Hb HB']; subst. cbn. constructor; [|apply IH; auto].
  destruct Ha, Hb. split; cbn; auto using e_min_glb, e_max_lub.
Qed.

(** ** make *)
Definition slab_step (d : vec3) (s : interval) (v : vec3) : interval :=
  mkI (e_min (lower s) (Fin (vdot d v))) (e_max (upper s) (Fin (vdot d v))).
Lemma slab_fold d : forall V s, (exists lo hi, lower s = Fin lo /\ upper s = Fin hi) ->
  exists lo hi, fold_left (slab_step d) V s = mkI (Fin lo) (Fin hi) /\
    e_le (Fin lo) (lower s) /\ e_le (upper s) (Fin hi) /\
    (forall v, In v V -> lo <= vdot d v <= hi) /\
    (lower s = Fin lo \/ exists v, In v V /\ lo = vdot d v) /\
    (upper s = Fin hi \/ exists v, In v V /\ hi = vdot d v).
Proof.
  induction V as [|v V IH]; intros s (lo & hi & E1 & E2).
  - exists lo, hi. destruct s; cbn in *; subst. repeat split; auto using e_le_refl; try (cbn; lra); contradiction.
  - cbn [fold_left]. assert (Hs : exists lo' hi', lower (slab_step d s v) = Fin lo' /\ upper (slab_step d s v) = Fin hi' /\
        lo' <= lo /\ lo' <= vdot d v /\ hi <= hi' /\ vdot d v <= hi' /\ (lo' = lo \/ lo' = vdot d v) /\ (hi' = hi \/ hi' = vdot d v)).
    { unfold slab_step; cbn. rewrite E1, E2. unfold e_min, e_max; cbn.
      destruct (Rltb_spec (vdot d v) lo), (Rltb_spec hi (vdot d v)); do 2 eexists; repeat split; auto; lra. }
    destruct Hs as (lo' & hi' & F1 & F2 & G1 & G2 & G3 & G4 & G5 & G6).
    destruct (IH (slab_step d s v)) as (lo2 & hi2 & H1 & H2 & H3 & H4 & H5 & H6); [eauto|].
    rewrite F1 in H2, H5. rewrite F2 in H3, H6. cbn in H2, H3.
    exists lo2, hi2. rewrite E1, E2. split; auto. split; [cbn; lra|]. split; [cbn; lra|]. split; [|split].
    + intros w [<-|Hw]; [lra|auto].
    + destruct H5 as [E|(w & Hw & E)]; [|right; exists w; cbn; auto]. injection E as E. destruct G5; [left; f_equal; lra|right; exists v; cbn; split; auto; lra].
    + destruct H6 as [E|(w & Hw & E)]; [|right; exists w; cbn; auto]. injection E as E. destruct G6; [left; f_equal; lra|right; exists v; cbn; split; auto; lra].
Qed.
Lemma make_slab_tight d V e : V <> [] -> exists lo hi, make_slab d V e = mkI (Fin lo) (Fin hi) /\
  (forall v, In v V -> lo + e <= vdot d v <= hi - e) /\
  (exists v, In v V /\ lo = vdot d v - e) /\ (exists v, In v V /\ hi = vdot d v + e).
Proof.
  destruct V as [|v V]; [contradiction|]. intros _. unfold make_slab. cbn [fold_left]. fold (slab_step d).
  change (fun s v => mkI (e_min (lower s) (Fin (vdot d v))) (e_max (upper s) (Fin (vdot d v)))) with (slab_step d).
  match goal with |- context [fold_left (slab_step d) V ?s0] => set (s := s0) end.
  assert (Es : s = mkI (Fin (vdot d v)) (Fin (vdot d v))) by reflexivity.
  destruct (slab_fold d V s) as (lo & hi & H1 & H2 & H3 & H4 & H5 & H6); [rewrite Es; cbn; eauto|].
  rewrite H1. rewrite Es in *; cbn in H2, H3, H5, H6. exists (lo + - e), (hi + e). split; [reflexivity|]. split; [|split].
  - intros w [<-|Hw]; [lra|]. specialize (H4 w Hw). lra.
  - destruct H5 as [E|(w & Hw & ->)]; [injection E as E; exists v; cbn; split; auto; lra|exists w; cbn; split; auto; lra].
  - destruct H6 as [E|(w & Hw & ->)]; [injection E as E; exists v; cbn; split; auto; lra|exists w; cbn; split; auto; lra].
Qed.
Lemma table_length K D : get_direction_table K = Some D -> length D = K.
Proof. destruct K as [|[|[|[|[|K]]]]]; cbn; intros E; try discriminate; injection E as <-; reflexivity. Qed.
Lemma kdop_make_length K V e A : kdop_make K V e = Some A -> length A = K.
Proof.
  unfold kdop_make. destruct (get_direction_table K) eqn:E; [|discriminate]. intros H; injection H as <-.
  rewrite map_length. apply table_length; auto.
Qed.
Lemma kdop_make_some K V e A V' e' : kdop_make K V e = Some A -> exists A', kdop_make K V' e' = Some A'.
Proof. unfold kdop_make. destruct (get_direction_table K); [eauto|discriminate]. Qed.
Lemma kdop_make_in K V e A D p : kdop_make K V e = Some A -> get_direction_table K = Some D -> 0 <= e -> In p V -> in_kdop D p A.
Proof.
  unfold kdop_make, in_kdop. intros H E He Hp. rewrite E in H. injection H as <-. clear E.
  induction D as [|d D IH]; cbn; constructor; auto.
  destruct (make_slab_tight d V e) as (lo & hi & Em & H1 & _); [destruct V; [contradiction|discriminate]|].
  rewrite Em. specialize (H1 p Hp). unfold in_slab; cbn. lra.
Qed.
