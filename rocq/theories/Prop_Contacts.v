(** Collision detection and stabilisation of the rigid body simulator: C53, C54, C63, C77, C78, C79. *)
From Coq Require Sorted Classical_Prop.
From Verif Require Import Base QuatModel VecModel BvhModel GridModel VolModel VecProofs SolverModel SolverProofs ProxModel QuatProofs QuatMatProofs
  BvhSpec RigidTypes RigidSpec CollModel StepModel StepProofs StepProofs2 ReadySpec ReadyProofs ConSpec ConProofs ConProofs2 Prop_Grid Prop_Step Prop_Constraints.
Open Scope R_scope.

(** * C53 *)
(** same unordered pair of bodies, same position *)
Definition duplicate (c d : contact) : Prop :=
  ((c_A c = c_A d /\ c_B c = c_B d) \/ (c_A c = c_B d /\ c_B c = c_A d)) /\ c_p c = c_p d.
Lemma same_contact_spec c d : c_A c <> c_B c -> c_A d <> c_B d -> reflect (duplicate c d) (same_contact c d).
Proof.
  intros Hc Hd. apply iff_reflect. unfold same_contact, set2_eqb, duplicate.
  destruct (name_eqb_spec (c_A c) (c_A d)), (name_eqb_spec (c_A c) (c_B d)), (name_eqb_spec (c_B c) (c_A d)), (name_eqb_spec (c_B c) (c_B d)),
    (name_eqb_spec (c_A d) (c_A c)), (name_eqb_spec (c_A d) (c_B c)), (name_eqb_spec (c_B d) (c_A c)), (name_eqb_spec (c_B d) (c_B c));
  try congruence; cbn [andb orb]; try (split; [intros [[[? ?]|[? ?]] _]; congruence|discriminate]);
  destruct (Reqb_spec (vx (c_p c)) (vx (c_p d))), (Reqb_spec (vy (c_p c)) (vy (c_p d))), (Reqb_spec (vz (c_p c)) (vz (c_p d))); cbn [andb];
  (split; [intros [_ E]; try reflexivity; exfalso; rewrite E in *; congruence|
     intros H; first [discriminate H|split; [auto|apply vec3_eq; auto]]]).
Qed.
Lemma duplicate_sym c d : duplicate c d -> duplicate d c.
Proof. intros [[[? ?]|[? ?]] ?]; split; auto. Qed.
(** The reduced list consists of exactly those contacts that duplicate no earlier one, in their order: [is] are the
    positions kept, in increasing order. *)
Theorem C53_first_of_each cs : (forall c, In c cs -> c_A c <> c_B c) ->
  exists is, Sorted.StronglySorted lt is /\ map (nth_error cs) is = map Some (contact_reduction cs) /\
  forall i, In i is <-> exists c, nth_error cs i = Some c /\ forall j d, (j < i)%nat -> nth_error cs j = Some d -> ~ duplicate d c.
Proof.
  intros Hne. unfold contact_reduction. set (f := fun reduced cp1 => if existsb (same_contact cp1) reduced then reduced else reduced ++ [cp1]).
  assert (Hne' : forall c, In c (rev cs) -> c_A c <> c_B c) by (intros c Hc; apply Hne; apply in_rev; auto).
  enough (G : forall l, (forall c, In c l -> c_A c <> c_B c) -> exists is, Sorted.StronglySorted lt is /\ map (nth_error (rev l)) is = map Some (fold_left f (rev l) []) /\
    forall i, In i is <-> exists c, nth_error (rev l) i = Some c /\ forall j d, (j < i)%nat -> nth_error (rev l) j = Some d -> ~ duplicate d c).
  { destruct (G (rev cs) Hne') as (is & H1 & H2 & H3). exists is. rewrite rev_involutive in *. auto. }
  clear. induction l as [|c l IH]; intros Hne.
  { exists []. split; [constructor|]. split; [reflexivity|]. intros i. split; [intros []|intros (c & H & _); destruct i; discriminate]. }
  destruct IH as (is & HS & HM & HI). { intros; apply Hne; right; auto. }
  cbn [rev]. set (L := rev l) in *. rewrite fold_left_app. cbn [fold_left]. set (red := fold_left f L []) in *.
  assert (Hlt : forall i, In i is -> (i < length L)%nat). { intros i Hi. apply HI in Hi as (c' & Hc' & _). apply nth_error_Some. congruence. }
  assert (HinL : forall d, In d red -> In d L).
  { intros d Hd. assert (In (Some d) (map Some red)) by (apply in_map; auto). rewrite <- HM in H. apply in_map_iff in H as (i & Hi & _). eapply nth_error_In; eauto. }
  assert (HneL : forall d, In d L -> c_A d <> c_B d). { intros d Hd. apply Hne. right. unfold L in Hd. apply in_rev in Hd. auto. }
  (* a contact of L has a kept duplicate *)
  assert (HK : forall j d, nth_error L j = Some d -> exists d', In d' red /\ duplicate d' d).
  { induction j as [j IHj] using lt_wf_ind. intros d Hd. 
    assert (Dec : (exists j' d', (j' < j)%nat /\ nth_error L j' = Some d' /\ duplicate d' d) \/ (forall j' d', (j' < j)%nat -> nth_error L j' = Some d' -> ~ duplicate d' d)).
    { destruct (Classical_Prop.classic (exists j' d', (j' < j)%nat /\ nth_error L j' = Some d' /\ duplicate d' d)) as [E|E]; [left; auto|right]. intros j' d' H1 H2 H3. apply E. exists j', d'. auto. }
    destruct Dec as [(j' & d' & Hj & Hd' & HD)|Hno].
    - destruct (IHj j' Hj d' Hd') as (d2 & H2 & HD2). exists d2. split; auto. destruct HD as [HA HB], HD2 as [HA2 HB2]. split; [|congruence].
      destruct HA as [[? ?]|[? ?]], HA2 as [[? ?]|[? ?]]; [left|right|right|left]; split; congruence.
    - exists d. split; [|split; auto]. assert (In j is) by (apply HI; eauto). apply (in_map (nth_error L)) in H. rewrite HM, Hd in H. apply in_map_iff in H as (x & Hx & Hin). congruence. }
  unfold f at 1. destruct (existsb (same_contact c) red) eqn:E.
  - (* dropped *)
    apply existsb_exists in E as (d & Hd & HSc). exists is. split; auto. split.
    + rewrite <- HM. apply map_ext_in. intros i Hi. apply nth_error_app1. auto.
    + intros i. rewrite HI. split; intros (c' & Hc' & Hn).
      * assert (i < length L)%nat by (apply nth_error_Some; congruence). exists c'. split; [rewrite nth_error_app1; auto|]. intros j d' Hj Hd'. rewrite nth_error_app1 in Hd' by lia. eapply Hn; eauto.
      * assert (Hi : (i < length L \/ i = length L)%nat). { assert (i < length (L ++ [c]))%nat by (apply nth_error_Some; congruence). rewrite app_length in H; cbn in H; lia. }
        destruct Hi as [Hi| ->].
        -- rewrite nth_error_app1 in Hc' by auto. exists c'. split; auto. intros j d' Hj Hd'. apply (Hn j); auto. rewrite nth_error_app1; auto. lia.
        -- exfalso. rewrite nth_error_app2, Nat.sub_diag in Hc' by lia. cbn in Hc'. assert (c' = c) by congruence. subst c'.
           destruct (In_nth_error _ _ (HinL d Hd)) as [j Hj]. assert (j < length L)%nat by (apply nth_error_Some; congruence).
           apply (Hn j d); auto; [rewrite nth_error_app1; auto|]. apply duplicate_sym. destruct (same_contact_spec c d); [apply Hne; left; auto|apply HneL; auto|auto|discriminate].
  - (* kept *)
    exists (is ++ [length L]). split; [|split].
    + clear - HS Hlt. induction is as [|i is IH]; cbn; [repeat constructor|]. inversion HS; subst. constructor; [apply IH; auto; intros; apply Hlt; right; auto|].
      apply Forall_app. split; auto. constructor; auto. apply Hlt. left. auto.
    + rewrite !map_app. cbn [map]. rewrite nth_error_app2, Nat.sub_diag by lia. cbn [nth_error]. f_equal. rewrite <- HM. apply map_ext_in. intros i Hi. apply nth_error_app1. auto.
    + intros i. rewrite in_app_iff, HI. cbn. split.
      * intros [(c' & Hc' & Hn)|[<-|[]]].
        -- assert (i < length L)%nat by (apply nth_error_Some; congruence). exists c'. split; [rewrite nth_error_app1; auto|]. intros j d' Hj Hd'. rewrite nth_error_app1 in Hd' by lia. eapply Hn; eauto.
        -- exists c. split. { rewrite nth_error_app2, Nat.sub_diag by lia. reflexivity. } intros j d Hj Hd HD. rewrite nth_error_app1 in Hd by auto.
           destruct (HK j d Hd) as (d' & Hd' & HD'). assert (HDc : duplicate c d').
           { apply duplicate_sym. destruct HD as [HA HB], HD' as [HA2 HB2]. split; [|congruence]. destruct HA as [[? ?]|[? ?]], HA2 as [[? ?]|[? ?]]; [left|right|right|left]; split; congruence. }
           assert (T : existsb (same_contact c) red = true). { apply existsb_exists. exists d'. split; auto. destruct (same_contact_spec c d'); auto; [apply Hne; left; auto]. } congruence.
      * intros (c' & Hc' & Hn). assert (Hi : (i < length L \/ i = length L)%nat). { assert (i < length (L ++ [c]))%nat by (apply nth_error_Some; congruence). rewrite app_length in H; cbn in H; lia. }
        destruct Hi as [Hi| ->]; [left|right; auto].
        rewrite nth_error_app1 in Hc' by auto. exists c'. split; auto. intros j d' Hj Hd'. apply (Hn j); auto. rewrite nth_error_app1; auto. lia.
Qed.
(** no duplicates remain and nothing is lost *)
Theorem C53_no_duplicates cs : (forall c, In c cs -> c_A c <> c_B c) ->
  (forall i j c d, nth_error (contact_reduction cs) i = Some c -> nth_error (contact_reduction cs) j = Some d -> duplicate c d -> i = j) /\
  (forall c, In c cs -> exists d, In d (contact_reduction cs) /\ duplicate d c) /\
  (forall c, In c (contact_reduction cs) -> In c cs).
Proof.
  intros Hne. destruct (C53_first_of_each cs Hne) as (is & HS & HM & HI). set (red := contact_reduction cs) in *.
  assert (HN : forall i, nth_error (map (nth_error cs) is) i = option_map Some (nth_error red i)). { intros i. rewrite HM. apply nth_error_map. }
  assert (Hsort : forall i j a b, nth_error is i = Some a -> nth_error is j = Some b -> (i < j)%nat -> (a < b)%nat).
  { clear - HS. induction HS as [|x l HS IH HF]; intros i j a b Ha Hb Hij; [destruct i; discriminate|]. destruct i, j; try lia; cbn in *.
    - assert (x = a) by congruence. subst. rewrite Forall_forall in HF. apply HF. eapply nth_error_In; eauto.
    - eapply IH; eauto. lia. }
  assert (Hpos : forall i c, nth_error red i = Some c -> exists a, nth_error is i = Some a /\ nth_error cs a = Some c).
  { intros i c Hc. specialize (HN i). rewrite Hc, nth_error_map in HN. destruct (nth_error is i) as [a|]; [|discriminate]. exists a. split; auto. cbn in HN. congruence. }
  split; [|split].
  - assert (G : forall i j c d, (i < j)%nat -> nth_error red i = Some c -> nth_error red j = Some d -> ~ duplicate c d).
    { intros i j c d Hij Hc Hd. destruct (Hpos i c Hc) as (a & Ha & Ea). destruct (Hpos j d Hd) as (b & Hb & Eb).
      assert (a < b)%nat by (eapply Hsort; eauto). assert (In b is) by (eapply nth_error_In; eauto). apply HI in H0 as (d' & Ed' & Hn). assert (d' = d) by congruence. subst. eapply Hn; eauto. }
    intros i j c d Hc Hd HD. destruct (Nat.lt_trichotomy i j) as [H|[H|H]]; auto; exfalso; [apply (G i j c d)|apply (G j i d c)]; auto. apply duplicate_sym; auto.
  - intros c Hc. apply In_nth_error in Hc as [i Hi]. revert c Hi. induction i as [i IH] using lt_wf_ind. intros c Hi.
    destruct (Classical_Prop.classic (exists j d, (j < i)%nat /\ nth_error cs j = Some d /\ duplicate d c)) as [(j & d & Hj & Hd & HD)|Hno].
    + destruct (IH j Hj d Hd) as (d2 & H2 & HD2). exists d2. split; auto. destruct HD as [HA HB], HD2 as [HA2 HB2]. split; [|congruence]. destruct HA as [[? ?]|[? ?]], HA2 as [[? ?]|[? ?]]; [left|right|right|left]; split; congruence.
    + exists c. split; [|split; auto]. assert (In i is). { apply HI. exists c. split; auto. intros j d Hj Hd HD. apply Hno. eauto. }
      apply (in_map (nth_error cs)) in H. rewrite HM, Hi in H. apply in_map_iff in H as (x & Hx & Hin). congruence.
  - intros c Hc. apply In_nth_error in Hc as [i Hi]. destruct (Hpos i c Hi) as (a & _ & Ea). eapply nth_error_In; eauto.
Qed.

(** * C54 *)
(** x is a convex combination of the three corners *)
Definition in_triangle (x : vec3) (ps : vec3 * vec3 * vec3) : Prop :=
  let '(p0, p1, p2) := ps in exists a b c, 0 <= a /\ 0 <= b /\ 0 <= c /\ a + b + c = 1 /\
  x = vadd (vadd (vscale a p0) (vscale b p1)) (vscale c p2).
Lemma corner_in ps i : in_triangle (pick3 ps i) ps.
Proof.
  destruct ps as [[p0 p1] p2]. cbn. destruct i as [|[|i]]; [exists 1, 0, 0|exists 0, 1, 0|exists 0, 0, 1];
  (repeat split; try lra); destruct p0, p1, p2; unfold vadd, vscale; cbn; f_equal; ring.
Qed.
Lemma mix_in ps x y t : 0 <= t <= 1 -> in_triangle x ps -> in_triangle y ps -> in_triangle (vadd x (vscale t (vsub y x))) ps.
Proof.
  destruct ps as [[p0 p1] p2]. intros Ht (a & b & c & Ha & Hb & Hc & Hs & ->) (a' & b' & c' & Ha' & Hb' & Hc' & Hs' & ->).
  exists (a + t * (a' - a)), (b + t * (b' - b)), (c + t * (c' - c)).
  assert (M : forall u v, 0 <= u -> 0 <= v -> 0 <= u + t * (v - u)). { intros u v Hu Hv. assert (0 <= (1 - t) * u) by (apply Rmult_le_pos; lra). assert (0 <= t * v) by (apply Rmult_le_pos; lra). lra. }
  repeat split; auto.
  - transitivity ((1 - t) * (a + b + c) + t * (a' + b' + c')); [ring|rewrite Hs, Hs'; ring].
  - destruct p0, p1, p2; unfold vadd, vscale, vsub; cbn; f_equal; ring.
Qed.
(** for every gradient field (total or not), tolerance and iteration limit *)
Theorem C54_stays_on_triangle grad tol iters ps x : fw_point grad tol iters ps = Some x -> in_triangle x ps.
Proof.
  unfold fw_point. destruct (grad (pick3 ps 0)) as [g0|]; [|discriminate]. destruct (grad (pick3 ps 1)) as [g1|]; [|discriminate]. destruct (grad (pick3 ps 2)) as [g2|]; [|discriminate].
  assert (G : forall n i y x, in_triangle y ps -> fw_loop grad tol ps n i y = Some x -> in_triangle x ps).
  { induction n as [|n IH]; intros i y x0 Hy H; cbn [fw_loop] in H; [congruence|]. destruct (grad y) as [g|]; [|discriminate]. cbv zeta in H.
    set (v := argmin3 _ _ _) in H. set (y' := vadd y _) in H.
    assert (Hy' : in_triangle y' ps). { apply mix_in; auto; [|apply corner_in]. assert (0 <= INR i) by apply pos_INR. split; [apply Rlt_le, Rdiv_lt_0_compat; lra|].
      apply Rmult_le_reg_r with (INR i + 2); [lra|]. unfold Rdiv. rewrite Rmult_assoc, Rinv_l by lra. lra. }
    destruct (Rltb tol _); [congruence|]. eapply IH; eauto. }
  apply G. apply corner_in.
Qed.
(** it starts at a corner whose gradient is shortest *)
Theorem C54_start grad tol ps x : fw_point grad tol 0 ps = Some x -> exists i, x = pick3 ps i /\ exists g, grad x = Some g /\
  forall j g', grad (pick3 ps j) = Some g' -> vnorm g <= vnorm g'.
Proof.
  unfold fw_point. destruct (grad (pick3 ps 0)) as [g0|] eqn:E0; [|discriminate]. destruct (grad (pick3 ps 1)) as [g1|] eqn:E1; [|discriminate]. destruct (grad (pick3 ps 2)) as [g2|] eqn:E2; [|discriminate].
  cbn [fw_loop]. intros H. assert (Ex : pick3 ps (argmin3 (vnorm g0) (vnorm g1) (vnorm g2)) = x) by congruence. eexists. split; [symmetry; exact Ex|]. rewrite <- Ex. clear H Ex.
  assert (HJ : forall j, pick3 ps (S (S j)) = pick3 ps 2). { intros j. destruct ps as [[? ?] ?]. reflexivity. }
  unfold argmin3. destruct (Rltb_spec (vnorm g1) (vnorm g0)), (Rltb_spec (vnorm g2) (vnorm g1)), (Rltb_spec (vnorm g2) (vnorm g0)); eexists; (split; [eassumption|]);
  intros [|[|j]] g' Hg'; try rewrite HJ in Hg'; assert (g' = g0 \/ g' = g1 \/ g' = g2) by (first [left; congruence|right; left; congruence|right; right; congruence]);
  first [assert (g' = g0) by congruence; subst g'; lra|assert (g' = g1) by congruence; subst g'; lra|assert (g' = g2) by congruence; subst g'; lra].
Qed.

(** * C63 *)
Lemma upd_fold {A} (test : nat -> A -> bool) (val : A -> R) (l : list (nat * A)) : NoDup (map fst l) -> forall g j,
  let r := fold_left (fun (g : vec) kc => let '(k, c) := kc in if test k c then (fun j => if Nat.eqb j (4 * k) then val c else g j) else g) l g in
  (forall k c, In (k, c) l -> j = (4 * k)%nat -> r j = if test k c then val c else g j) /\
  ((forall k c, In (k, c) l -> j <> (4 * k)%nat) -> r j = g j).
Proof.
  induction l as [|[k c] l IH]; intros ND g j r; inversion ND as [|? ? Hni ND']; subst.
  - split; [intros ? ? []|reflexivity].
  - set (g1 := if test k c then (fun j => if Nat.eqb j (4 * k) then val c else g j) else g).
    assert (Er : r = fold_left (fun (g : vec) kc => let '(k, c) := kc in if test k c then (fun j => if Nat.eqb j (4 * k) then val c else g j) else g) l g1) by reflexivity.
    destruct (IH ND' g1 j) as [I1 I2]. rewrite <- Er in *. clear Er. split.
    + intros k0 c0 [E|Hin] ->.
      * assert (k0 = k) by congruence. assert (c0 = c) by congruence. subst. rewrite I2.
        -- unfold g1. destruct (test k c); auto. rewrite Nat.eqb_refl. reflexivity.
        -- intros k1 c1 Hin E1. apply Hni. apply in_map_iff. exists (k1, c1). split; auto. cbn. lia.
      * rewrite (I1 k0 c0 Hin eq_refl). destruct (test k0 c0); auto. unfold g1. destruct (test k c); auto. destruct (Nat.eqb_spec (4 * k0) (4 * k)) as [E|]; auto.
        exfalso. apply Hni. apply in_map_iff. exists (k0, c0). split; auto. cbn. lia.
    + intros Hno. rewrite I2 by (intros; eapply Hno; right; eauto). unfold g1. destruct (test k c); auto. destruct (Nat.eqb_spec j (4 * k)); auto.
      exfalso. apply (Hno k c); auto. left; auto.
Qed.
Lemma enum_nodup {A} (l : list A) : NoDup (map fst (enum l)).
Proof.
  assert (E : map fst (enum l) = seq 0 (length l)). { unfold enum. generalize 0%nat. induction l as [|a l IH]; intros n; cbn; [reflexivity|]. f_equal. apply IH. }
  rewrite E. apply seq_NoDup.
Qed.
(** Every entry of the pre-stabilisation vector.  It is zero without pre-stabilisation; otherwise only normal rows of
    contacts penetrating by more than min_gap_value and not separating are non-zero. *)
Theorem C63_contact_error P dt v cs g : contact_error P dt v cs = Some g ->
  (p_use_pre P = false -> forall j, g j = 0) /\
  (p_use_pre P = true -> dt <> 0 /\
    (forall k cp, nth_error cs k = Some cp ->
      (c_g cp < - p_min_gap P /\ v (4 * k)%nat <= 0 -> g (4 * k)%nat = Rmax (- p_max_gap P / dt) (p_gap_reduction P / dt * c_g cp)) /\
      (- p_min_gap P <= c_g cp \/ 0 < v (4 * k)%nat -> g (4 * k)%nat = 0)) /\
    (forall j, (forall k, (k < length cs)%nat -> j <> (4 * k)%nat) -> g j = 0)).
Proof.
  unfold contact_error. destruct (p_use_pre P); cbn [negb]; intros H; (split; [try discriminate|try discriminate]).
  2:{ intros _ j. assert (g = vzeros) by congruence. subst. reflexivity. }
  intros _. destruct (Reqb_spec dt 0) as [|Hdt]; [discriminate|]. split; auto. cbv zeta in H. apply some_eq in H. rewrite <- H. clear H.
  set (test := fun k cp => Rltb (c_g cp) (- p_min_gap P) && Rleb (v (4 * k)%nat) 0).
  set (val := fun cp => Rmax (- p_max_gap P / dt) (p_gap_reduction P / dt * c_g cp)).
  assert (U := upd_fold test val (enum cs) (enum_nodup cs) vzeros). cbv zeta in U. split.
  - intros k cp Hk. destruct (U (4 * k)%nat) as [U1 _]. specialize (U1 k cp (proj2 (enum_in _ _ _) Hk) eq_refl). unfold test, val in U1.
    split; intros HH; (etransitivity; [exact U1|]); clear - HH; destruct (Rltb_spec (c_g cp) (- p_min_gap P)), (Rleb_spec (v (4 * k)%nat) 0); cbn [andb]; auto; lra.
  - intros j Hj. destruct (U j) as [_ U2]. apply U2. intros k c Hin. apply Hj. apply enum_in in Hin. apply nth_error_Some. congruence.
Qed.
(** hence, for a positive step and non-negative parameters, every entry lies between -max_gap_value/dt and 0 *)
Theorem C63_error_bounded P dt v cs g j : contact_error P dt v cs = Some g -> 0 < dt -> 0 <= p_max_gap P -> 0 <= p_min_gap P -> 0 <= p_gap_reduction P ->
  - p_max_gap P / dt <= g j <= 0.
Proof.
  intros H Hdt HM Hm Hr. destruct (C63_contact_error P dt v cs g H) as [H0 H1].
  assert (B : - p_max_gap P / dt <= 0). { unfold Rdiv. assert (0 < / dt) by (apply Rinv_0_lt_compat; auto). assert (0 <= p_max_gap P * / dt) by (apply Rmult_le_pos; lra). lra. }
  destruct (p_use_pre P). 2:{ rewrite H0; auto. lra. }
  destruct (H1 eq_refl) as (_ & H2 & H3). destruct (Classical_Prop.classic (exists k, (k < length cs)%nat /\ j = (4 * k)%nat)) as [(k & Hk & ->)|Hn].
  - destruct (nth_error cs k) as [cp|] eqn:E. 2:{ apply nth_error_None in E. lia. }
    destruct (H2 k cp E) as [A1 A2]. destruct (Rlt_dec (c_g cp) (- p_min_gap P)) as [L|L]; [|rewrite A2 by lra; lra].
    destruct (Rle_dec (v (4 * k)%nat) 0); [|rewrite A2 by lra; lra]. rewrite A1 by auto. split; [apply Rmax_l|]. apply Rmax_lub; auto.
    unfold Rdiv. assert (0 < / dt) by (apply Rinv_0_lt_compat; auto). assert (0 <= p_gap_reduction P * / dt) by (apply Rmult_le_pos; lra). nra.
  - rewrite H3; [lra|]. intros k Hk E. apply Hn. eauto.
Qed.
(** post-stabilisation: the full penetration, in the normal rows of contacts penetrating by more than min_gap_value *)
Theorem C63_post_error P cs : 
  (forall k cp, nth_error cs k = Some cp -> (c_g cp < - p_min_gap P -> post_error P cs (4 * k)%nat = c_g cp) /\ (- p_min_gap P <= c_g cp -> post_error P cs (4 * k)%nat = 0)) /\
  (forall j, (forall k, (k < length cs)%nat -> j <> (4 * k)%nat) -> post_error P cs j = 0) /\
  (0 <= p_min_gap P -> forall j, post_error P cs j <= 0).
Proof.
  set (test := fun (k : nat) cp => Rltb (c_g cp) (- p_min_gap P)).
  assert (U := upd_fold test c_g (enum cs) (enum_nodup cs) vzeros). cbv zeta in U.
  assert (A1 : forall k cp, nth_error cs k = Some cp -> (c_g cp < - p_min_gap P -> post_error P cs (4 * k)%nat = c_g cp) /\ (- p_min_gap P <= c_g cp -> post_error P cs (4 * k)%nat = 0)).
  { intros k cp Hk. destruct (U (4 * k)%nat) as [U1 _]. specialize (U1 k cp (proj2 (enum_in _ _ _) Hk) eq_refl). unfold test in U1.
    split; intros HH; (etransitivity; [exact U1|]); destruct (Rltb_spec (c_g cp) (- p_min_gap P)); auto; lra. }
  assert (A2 : forall j, (forall k, (k < length cs)%nat -> j <> (4 * k)%nat) -> post_error P cs j = 0).
  { intros j Hj. destruct (U j) as [_ U2]. apply U2. intros k c Hin. apply Hj. apply enum_in in Hin. apply nth_error_Some. congruence. }
  split; auto. split; auto. intros Hm j. destruct (Classical_Prop.classic (exists k, (k < length cs)%nat /\ j = (4 * k)%nat)) as [(k & Hk & ->)|Hn].
  - destruct (nth_error cs k) as [cp|] eqn:E. 2:{ apply nth_error_None in E. lia. }
    destruct (A1 k cp E) as [B1 B2]. destruct (Rlt_dec (c_g cp) (- p_min_gap P)) as [L|L]; [rewrite B1 by auto; lra|rewrite B2 by lra; lra].
  - rewrite A2; [lra|]. intros k Hk E. apply Hn. eauto.
Qed.
(** get_largest_penetration is the maximum of 0 and the penetration depths *)
Theorem C63_largest_penetration cs : let p := get_largest_penetration cs in
  0 <= p /\ (forall c, In c cs -> - c_g c <= p) /\ (p = 0 \/ exists c, In c cs /\ p = - c_g c).
Proof.
  unfold get_largest_penetration. cbv zeta.
  assert (G : forall cs a, let m := fold_left (fun gap cp => Rmin gap (c_g cp)) cs a in m <= a /\ (forall c, In c cs -> m <= c_g c) /\ (m = a \/ exists c, In c cs /\ m = c_g c)).
  { clear. induction cs as [|c cs IH]; intros a; cbn [fold_left]; cbv zeta. { split; [lra|]. split; [intros ? []|auto]. }
    destruct (IH (Rmin a (c_g c))) as (H1 & H2 & H3). cbv zeta in *. split; [eapply Rle_trans; [exact H1|apply Rmin_l]|]. split.
    - intros d [<-|Hd]; auto. eapply Rle_trans; [exact H1|apply Rmin_r].
    - destruct H3 as [H3|(d & Hd & H3)]; [|right; exists d; split; [right|]; auto]. rewrite H3. unfold Rmin. destruct (Rle_dec a (c_g c)); [left; auto|right; exists c; split; [left|]; auto]. }
  destruct (G cs 0) as (H1 & H2 & H3). cbv zeta in *. split; [lra|]. split; [intros c Hc; specialize (H2 c Hc); lra|].
  destruct H3 as [->|(c & Hc & ->)]; [left; lra|right; eauto].
Qed.
Example C63_nonvacuous : exists g, contact_error (mkParams (1/100) 200 false true true (1/2) (1/1000) (1/100) 0 0 0 0 0 8 0 255 3 (1/10) 64) (1/100) vzeros
  [mkContact [] [] vzero (mkV 0 0 1) (-1)] = Some g /\ g 0%nat = -1 /\ g 1%nat = 0.
Proof.
  unfold contact_error; cbn. destruct (Reqb_spec (1/100) 0); [lra|]. eexists. split; [reflexivity|].
  destruct (Rltb_spec (-1) (- (1 / 1000))); [|lra]. unfold vzeros. destruct (Rleb_spec 0 0); [|lra]. cbn. split; [|reflexivity].
  unfold Rmax. destruct (Rle_dec _ _); lra.
Qed.

(** * C77 *)
Lemma combinations2_pos {A} (l : list A) a b : In (a, b) (combinations2 l) -> exists i j, (i < j)%nat /\ nth_error l i = Some a /\ nth_error l j = Some b.
Proof.
  induction l as [|x l IH]; cbn; [tauto|]. rewrite in_app_iff, in_map_iff. intros [(y & E & Hy)|H].
  - apply In_nth_error in Hy as [j Hj]. exists 0%nat, (S j). assert (x = a) by congruence. assert (y = b) by congruence. subst. repeat split; auto. lia.
  - destruct (IH H) as (i & j & Hij & Hi & Hj). exists (S i), (S j). repeat split; auto. lia.
Qed.
(** the point p of the world, seen from the body frame of b *)
Definition to_body (b : body) (p : vec3) : vec3 := q_rotate (q_conj (b_q b)) (vsub p (b_r b)).
(** ... and from its frame to the world *)
Definition to_world (b : body) (p : vec3) : vec3 := vadd (q_rotate (b_q b) p) (b_r b).
Lemma world_vertices_map b s : world_vertices b s = map (to_world b) (sh_V s).
Proof. unfold world_vertices. rewrite q_rotate_array_map, map_map. reflexivity. Qed.
(** What a contact c between the body A that owns the triangle and the body B that owns the distance field means *)
Definition contact_between (env : R) (A B : body) (c : contact) : Prop :=
  c_A c = b_name B /\ c_B c = b_name A /\
  exists sA sB t a0 a1 a2, b_shape A = Some sA /\ b_shape B = Some sB /\
    tri_corners (sh_V sA) (sh_T sA) t = Some (a0, a1, a2) /\ in_triangle (c_p c) (to_world A a0, to_world A a1, to_world A a2) /\
    get_value (sh_grid sB) (to_body B (c_p c)) = Some (c_g c) /\ c_g c <= env /\
    grid_is_inside (sh_grid sB) (to_body B (c_p c)) (1 / 2) = Some true /\
    exists n, get_gradient (sh_grid sB) (to_body B (c_p c)) = Some n /\ q_rotate (b_q B) n <> vzero /\
      c_n c = v3_unit (q_rotate (b_q B) n) /\ vnorm (c_n c) = 1.
Lemma tri_corners_map f V T t ps : tri_corners (map f V) T t = Some ps ->
  exists p0 p1 p2, tri_corners V T t = Some (p0, p1, p2) /\ ps = (f p0, f p1, f p2).
Proof.
  unfold tri_corners. destruct (py_get T t) as [[[i j] k]|]; [|discriminate]. rewrite !py_get_map.
  destruct (py_get V i) as [p0|]; cbn; [|discriminate]. destruct (py_get V j) as [p1|]; cbn; [|discriminate]. destruct (py_get V k) as [p2|]; cbn; [|discriminate].
  intros H. exists p0, p1, p2. split; auto. congruence.
Qed.
Lemma in_triangle_affine b x p0 p1 p2 : is_unit (b_q b) -> in_triangle x (to_body b p0, to_body b p1, to_body b p2) ->
  in_triangle (vadd (q_rotate (b_q b) x) (b_r b)) (p0, p1, p2).
Proof.
  intros Hu (a & b' & c & Ha & Hb & Hc & Hs & ->). exists a, b', c. repeat split; auto.
  rewrite !q_rotate_add, !q_rotate_scale. unfold to_body. rewrite !q_rotate_inv_r by auto.
  destruct (b_r b), p0, p1, p2. unfold vadd, vscale, vsub; cbn. f_equal; nra.
Qed.
Lemma to_body_back b x : is_unit (b_q b) -> to_body b (vadd (q_rotate (b_q b) x) (b_r b)) = x.
Proof.
  intros Hu. unfold to_body. replace (vsub (vadd (q_rotate (b_q b) x) (b_r b)) (b_r b)) with (q_rotate (b_q b) x).
  - apply q_rotate_inv_l; auto.
  - destruct (q_rotate (b_q b) x), (b_r b). unfold vsub, vadd; cbn. f_equal; ring.
Qed.
Lemma compute_contacts_sound e A B ts cs c : is_unit (b_q B) -> compute_contacts e A B ts = Some cs -> In c cs -> contact_between (p_envelope (e_params e)) A B c.
Proof.
  intros Hu H Hc. unfold compute_contacts in H. destruct (b_shape A) as [sA|] eqn:EA; [|discriminate]. destruct (b_shape B) as [sB|] eqn:EB; [|discriminate].
  cbv zeta in H. match type of H with context [map_opt ?h ?l] => set (f := h) in H; destruct (map_opt f l) as [ls|] eqn:E; [|discriminate] end.
  apply some_eq in H. subst cs. apply in_concat in Hc as (l & Hl & Hc). destruct (map_opt_in _ _ _ _ E Hl) as (t & _ & Et). unfold f in Et.
  rewrite q_rotate_array_map, map_map in Et. 
  destruct (tri_corners (map _ _) (sh_T sA) t) as [ps|] eqn:Ep; [|discriminate].
  destruct (tri_corners_map _ _ _ _ _ Ep) as (p0 & p1 & p2 & Ep' & Eps). rewrite world_vertices_map in Ep'.
  destruct (tri_corners_map _ _ _ _ _ Ep') as (a0 & a1 & a2 & Ea' & Ea).
  destruct (fw_point _ _ _ ps) as [x|] eqn:Ex; [|discriminate].
  assert (Hx := C54_stays_on_triangle _ _ _ _ _ Ex). rewrite Eps in Hx. fold (to_body B p0) (to_body B p1) (to_body B p2) in Hx.
  unfold contact_of_point in Et. destruct (grid_is_inside (sh_grid sB) x (1/2)) as [ins|] eqn:Ei; [|discriminate].
  destruct ins; [|assert (l = []) by congruence; subst; destruct Hc].
  destruct (get_value (sh_grid sB) x) as [phi|] eqn:Ev; [|discriminate].
  destruct (Rleb_spec phi (p_envelope (e_params e))) as [Hle|]; [|assert (l = []) by congruence; subst; destruct Hc].
  destruct (get_gradient (sh_grid sB) x) as [n|] eqn:En; [|discriminate]. cbv zeta in Et.
  destruct (Rltb_spec 0 (vnorm (q_rotate (b_q B) n))) as [Hn|]; [|assert (l = []) by congruence; subst; destruct Hc].
  rewrite make_contact_unit in Et by (apply unit_of_pos; auto). apply some_eq in Et. subst l. destruct Hc as [<-|[]].
  unfold contact_between. cbn [c_A c_B c_p c_g c_n]. split; auto. split; auto. exists sA, sB, t, a0, a1, a2. split; auto. split; auto. split; auto.
  split. { rewrite <- Ea. apply in_triangle_affine; auto. } rewrite to_body_back by auto. split; auto. split; auto. split; auto. exists n. split; auto.
  split. { intros Z. rewrite Z in Hn. unfold vnorm, vdot in Hn; cbn in Hn. rewrite !Rmult_0_l, !Rplus_0_l, sqrt_0 in Hn. lra. } split; auto. apply unit_of_pos; auto.
Qed.
(** Every contact found joins two different bodies of the engine, lies on a triangle of one of them, and carries the
    value of the other's distance field there (at most the envelope) and the unit normal from its gradient. *)
Theorem C77_contacts e e1 c : run_collision_detection e = Some e1 -> (forall b, In b (e_bodies e) -> is_unit (b_q b)) -> In c (e_contacts e1) ->
  exists i j A B, i <> j /\ nth_error (e_bodies e1) i = Some A /\ nth_error (e_bodies e1) j = Some B /\
    contact_between (p_envelope (e_params e)) A B c.
Proof.
  intros H HU Hc. destruct (cd_bvh_only _ _ H) as (HB & _). unfold run_collision_detection in H.
  destruct (update_bvh e) as [e0|] eqn:E0; [|discriminate]. destruct (narrow_phase e0) as [ov|] eqn:E1; [|discriminate].
  destruct (contact_determination ov e0) as [e2|] eqn:E2; [|discriminate]. apply some_eq in H. subst e1. cbn [e_contacts e_bodies set_contacts] in *.
  apply reduction_sub in Hc. unfold contact_determination in E2.
  match type of E2 with context [map_opt ?h ?l] => set (f := h) in E2; destruct (map_opt f l) as [ls|] eqn:E3; [|discriminate] end.
  apply some_eq in E2. subst e2. cbn [e_contacts e_bodies set_contacts] in *.
  assert (EP : e_params e0 = e_params e). { unfold update_bvh in E0. destruct (map_opt _ _); [|discriminate]. apply some_eq in E0. subst e0. reflexivity. }
  apply in_concat in Hc as (l & Hl & Hc). destruct (map_opt_in _ _ _ _ E3 Hl) as ([[A B] rs] & Ho & Ef). unfold f in Ef.
  unfold narrow_phase in E1. match type of E1 with context [map_opt ?h ?l] => set (f1 := h) in E1; destruct (map_opt f1 l) as [rs1|] eqn:E4; [|discriminate] end.
  apply some_eq in E1. subst ov. apply filter_In in Ho as [Ho _]. destruct (map_opt_in _ _ _ _ E4 Ho) as ([A' B'] & HAB & E5). unfold f1 in E5. cbn [fst snd] in E5.
  destruct (b_bvh A'); [|discriminate]. destruct (b_bvh B'); [|discriminate]. destruct (traversal t t0); [|discriminate]. assert (A' = A) by congruence. assert (B' = B) by congruence. subst A' B'. clear E5.
  apply combinations2_pos in HAB as (i & j & Hij & Hi & Hj).
  assert (HQ : forall k b, nth_error (e_bodies e0) k = Some b -> is_unit (b_q b)).
  { intros k b Hk. destruct (nth_error (e_bodies e) k) as [b'|] eqn:Hk'.
    - destruct (Forall2_nth _ _ _ _ _ HB Hk') as (b2 & Hk2 & [tr ->]). assert (b = with_bvh b' tr) by congruence. subst b. cbn. apply HU. eapply nth_error_In; eauto.
    - apply nth_error_None in Hk'. rewrite (Forall2_len _ _ _ HB) in Hk'. assert (k < length (e_bodies e0))%nat by (apply nth_error_Some; congruence). lia. }
  destruct (compute_contacts e0 A B _) as [c1|] eqn:C1; [|discriminate]. destruct (compute_contacts e0 B A _) as [c2|] eqn:C2; [|discriminate].
  apply some_eq in Ef. subst l. apply in_app_or in Hc as [Hc|Hc]; rewrite <- EP.
  - exists i, j, A, B. split; [lia|]. split; [auto|]. split; [auto|]. eapply compute_contacts_sound; eauto.
  - exists j, i, B, A. split; [lia|]. split; [auto|]. split; [auto|]. eapply compute_contacts_sound; eauto.
Qed.

(** * C79 *)
(** a contact is only ever reported at least 1/2 inside the other body's grid box ... *)
Theorem C79_deep_partial e e1 c : run_collision_detection e = Some e1 -> (forall b, In b (e_bodies e) -> is_unit (b_q b)) -> In c (e_contacts e1) ->
  exists B sB x, In B (e_bodies e1) /\ b_name B = c_A c /\ b_shape B = Some sB /\ x = to_body B (c_p c) /\
    (vx (g_min (sh_grid sB)) + 1/2 <= vx x <= vx (g_max (sh_grid sB)) - 1/2) /\
    (vy (g_min (sh_grid sB)) + 1/2 <= vy x <= vy (g_max (sh_grid sB)) - 1/2) /\
    (vz (g_min (sh_grid sB)) + 1/2 <= vz x <= vz (g_max (sh_grid sB)) - 1/2).
Proof.
  intros H HU Hc. destruct (C77_contacts e e1 c H HU Hc) as (i & j & A & B & _ & _ & HB & HA1 & _ & sA & sB & t & a0 & a1 & a2 & _ & EB & _ & _ & _ & _ & Hin & _).
  exists B, sB, (to_body B (c_p c)). split; [eapply nth_error_In; eauto|]. split; auto. split; auto. split; auto.
  unfold grid_is_inside in Hin. destruct (Rltb (1/2) 0); [discriminate|].
  repeat match type of Hin with (if Rltb ?a ?b then _ else _) = _ => destruct (Rltb_spec a b); [discriminate|] end. lra.
Qed.
(** ... so bodies whose grid boxes are narrower than 1 along some axis never get any contact, however deep they overlap *)
Definition narrow_grid (b : body) : Prop := forall s, b_shape b = Some s ->
  vx (g_max (sh_grid s)) - vx (g_min (sh_grid s)) < 1 \/ vy (g_max (sh_grid s)) - vy (g_min (sh_grid s)) < 1 \/ vz (g_max (sh_grid s)) - vz (g_min (sh_grid s)) < 1.
Theorem C79_small_bodies_partial e e1 : run_collision_detection e = Some e1 -> (forall b, In b (e_bodies e) -> is_unit (b_q b)) ->
  (forall b, In b (e_bodies e) -> narrow_grid b) -> e_contacts e1 = [].
Proof.
  intros H HU HN. destruct (e_contacts e1) as [|c cs] eqn:E; auto. exfalso.
  destruct (C79_deep_partial e e1 c H HU) as (B & sB & x & HB & _ & EB & _ & Hx & Hy & Hz). { rewrite E. left; auto. }
  apply In_nth_error in HB as [k Hk]. destruct (cd_bvh_only _ _ H) as (HF & _).
  destruct (nth_error (e_bodies e) k) as [b|] eqn:Hk'.
  - destruct (Forall2_nth _ _ _ _ _ HF Hk') as (b2 & Hk2 & [tr ->]). assert (B = with_bvh b tr) by congruence. subst B. cbn in EB.
    destruct (HN b (nth_error_In _ _ Hk') sB EB) as [L|[L|L]]; lra.
  - apply nth_error_None in Hk'. rewrite (Forall2_len _ _ _ HF) in Hk'. assert (k < length (e_bodies e1))%nat by (apply nth_error_Some; congruence). lia.
Qed.
(** Two tetrahedra with edges of length 1/4, lying in the same place, with the grid box create_shape gives them (the
    bounding box enlarged by 2 envelopes = 1/5): the engine is ready, the collision detection runs and finds nothing. *)
Definition s_V : list vec3 := [mkV 0 0 0; mkV (1/4) 0 0; mkV 0 (1/4) 0; mkV 0 0 (1/4)].
Definition s_grid : grid := mkG (mkV (-1/5) (-1/5) (-1/5)) (mkV (9/20) (9/20) (9/20)) 2 2 2 (mkV (13/20) (13/20) (13/20)) (Some (repeat (-1) 8)).
Definition s_shape : shape := mkShape [115%nat] s_V w_T s_grid 1 (mkV 1 1 1) vzero q_identity.
Definition s_body (tr : tree) (nm : name) (idx : nat) : body :=
  mkBody nm idx q_identity vzero vzero vzero 2 (mkV 1 2 3) (Some s_shape) false [] default_name (Some tr).
Definition s_engine (bs : list body) : engine := mkEngine bs [] [s_shape] [] [] library_init params_init true.
Lemma s_mesh : valid_mesh s_V (map tri_list w_T).
Proof.
  intros el H. cbn in H. repeat match goal with H : _ \/ _ |- _ => destruct H as [<-|H] | H : False |- _ => destruct H end; eexists; reflexivity.
Qed.
Lemma s_grid_ready : grid_ready s_grid.
Proof.
  exists (mkV (-1/5) (-1/5) (-1/5)), (mkV (9/20) (9/20) (9/20)), 2%Z, 2%Z, 2%Z, (fun _ _ _ => -1). cbn [vx vy vz]. repeat match goal with |- _ /\ _ => split end; try lra.
  - unfold grid_of. cbn [vx vy vz]. repeat match goal with |- _ /\ _ => split end; try lra.
    destruct (GridProofs.grid_make_some (mkV (-1/5) (-1/5) (-1/5)) (mkV (9/20) (9/20) (9/20)) 2 2 2) as (g0 & E & H); cbn; try lra; try lia. exists g0. split; auto.
    unfold grid_make in E. destruct (any_lt _ _); [discriminate|]. cbn in E. injection E as <-. exists (Some (repeat (-1) 8)). cbn. unfold s_grid. f_equal. apply vec3_eq; cbn; lra.
  - intros i j k (Hi & Hj & Hk). cbn in Hi, Hj, Hk. unfold get_node_value, get_linear_index. cbn [g_values g_I g_J s_grid].
    assert (Ci : (i = 0 \/ i = 1)%Z) by lia. assert (Cj : (j = 0 \/ j = 1)%Z) by lia. assert (Ck : (k = 0 \/ k = 1)%Z) by lia.
    destruct Ci as [-> | ->], Cj as [-> | ->], Ck as [-> | ->]; reflexivity.
Qed.
Theorem C79_refuted : exists e e1 A B s p ps, engine_ready e /\ e_bodies e = [A; B] /\ b_name A <> b_name B /\
  b_shape A = Some s /\ b_shape B = Some s /\
  (* p is a common point of a triangle of A and a triangle of B *)
  tri_corners (world_vertices A s) (sh_T s) 0 = Some ps /\ tri_corners (world_vertices B s) (sh_T s) 0 = Some ps /\ in_triangle p ps /\
  run_collision_detection e = Some e1 /\ e_contacts e1 = [].
Proof.
  destruct (Prop_Geometry.C20_make_bvh_shape s_V (map tri_list w_T) 3 255 (1/10) (or_introl eq_refl) s_mesh ltac:(lia)) as (tr & E & _).
  set (A := s_body tr [97%nat] 0). set (B := s_body tr [98%nat] 1). set (e := s_engine [A; B]).
  assert (HB : forall nm idx, body_ready 3 (s_body tr nm idx)).
  { intros nm idx. split; [|split].
    - exists s_shape, tr, 255%Z, s_V, (1/10). cbn. split; [auto|]. split; [apply s_mesh|]. split; [apply s_grid_ready|]. split; [auto|]. split; [lia|].
      apply reach_make; auto. apply s_mesh.
    - unfold is_unit, qdot; cbn. ring.
    - intros _. cbn. repeat split; lra. }
  assert (HR : engine_ready e). { unfold engine_ready. split; [left; reflexivity|]. split; [constructor; [apply HB|constructor; [apply HB|constructor]]|].
    split; [apply Forall_nil|]. cbn. discriminate. }
  destruct (cd_total e HR) as (e1 & E1 & _).
  assert (Hps : exists p0 p1 p2, tri_corners (world_vertices A s_shape) w_T 0 = Some (p0, p1, p2)).
  { assert (V0 : valid_mesh (world_vertices A s_shape) (map tri_list w_T)) by apply world_valid, s_mesh.
    assert (R0 : (0 <= 0 < Z.of_nat (length w_T))%Z) by (cbn; lia). destruct (tri_corners_total _ _ _ V0 R0) as [[[p0 p1] p2] Ep]. eauto. }
  destruct Hps as (p0 & p1 & p2 & Eps).
  exists e, e1, A, B, s_shape, p0, (p0, p1, p2). split; auto. split; auto. split; [discriminate|]. split; auto. split; auto. split; auto. split; auto.
  split. { exact (corner_in (p0, p1, p2) 0). } split; auto. eapply C79_small_bodies_partial; eauto.
  - intros b [<-|[<-|[]]]; unfold is_unit, qdot; cbn; ring.
  - intros b [<-|[<-|[]]] s Hs; cbn in Hs; assert (s = s_shape) by congruence; subst; left; cbn; lra.
Qed.
Print Assumptions C53_first_of_each.
Print Assumptions C53_no_duplicates.
Print Assumptions C54_stays_on_triangle.
Print Assumptions C54_start.
Print Assumptions C63_contact_error.
Print Assumptions C63_error_bounded.
Print Assumptions C63_post_error.
Print Assumptions C63_largest_penetration.
Print Assumptions C77_contacts.
Print Assumptions C79_deep_partial.
Print Assumptions C79_small_bodies_partial.
Print Assumptions C79_refuted.
