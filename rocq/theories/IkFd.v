(** The finite difference functions. *)
From Verif Require Import Base VecModel QuatModel QuatProofs BvhModel BvhProofs IkModel IkSpec IkProofs IkPose IkDeriv IkJac IkGrad.
Open Scope R_scope.

Lemma update_joints s s' : bone_tree s -> codes_ok s -> same_joints s s' -> update_skeleton s' = update_skeleton s.
Proof.
  intros HT HC SJ. destruct s as [|b s0].
  - unfold same_joints in SJ. destruct s'; [auto|discriminate].
  - set (s := b :: s0) in *. assert (N : s <> []) by discriminate. assert (N' : s' <> []). { intros ->. unfold same_joints in SJ. discriminate. }
    destruct (update_skeleton_ok s HT HC N) as (u & U & SU & RU).
    destruct (update_skeleton_ok s' (same_joints_tree _ _ SJ HT) (same_joints_codes _ _ SJ HC) N') as (v & V & SV & RV).
    rewrite U, V. f_equal. symmetry. pose proof (same_joints_length _ _ SJ). pose proof (same_joints_length _ _ SU). pose proof (same_joints_length _ _ SV).
    apply right_ext.
    + exact (same_joints_trans _ _ _ (same_joints_sym _ _ SU) (same_joints_trans _ _ _ SJ SV)).
    + intros j Hj. apply RU. lia.
    + intros j Hj. apply RV. lia.
Qed.
Lemma objective_joints cs s s' : bone_tree s -> codes_ok s -> same_joints s s' -> objective_at cs s' = objective_at cs s.
Proof. intros HT HC SJ. unfold objective_at. rewrite (update_joints s s'); auto. Qed.

Lemma strip_set_ang o b b' x : strip b = strip b' -> strip (set_ang o b x) = strip (set_ang o b' x).
Proof. unfold strip. intros H. injection H; intros. destruct o as [|[|o]]; cbn; congruence. Qed.
Lemma strip_ang o b b' : strip b = strip b' -> ang o b = ang o b'.
Proof. unfold strip. intros H. injection H; intros. destruct o as [|[|o]]; cbn; congruence. Qed.
Lemma map_list_upd {A B} (f : A -> B) l : forall k x, map f (list_upd l k x) = list_upd (map f l) k (f x).
Proof. induction l as [|a l IH]; intros [|k] x; cbn; auto. f_equal. auto. Qed.
Lemma vary_joints s s' m o x : same_joints s s' -> same_joints (vary s m o x) (vary s' m o x).
Proof.
  intros SJ. unfold vary. destruct (nth_error s m) as [b|] eqn:E.
  - destruct (strip_nth _ _ _ _ SJ E) as (b' & E' & S). rewrite E'. unfold same_joints in *. rewrite !map_list_upd, SJ. f_equal. symmetry. apply strip_set_ang; auto.
  - destruct (nth_error s' m) as [b'|] eqn:E'; auto. destruct (strip_nth _ _ _ _ (same_joints_sym _ _ SJ) E') as (b & X & _). congruence.
Qed.
Lemma list_upd_twice {A} (l : list A) : forall k x y, list_upd (list_upd l k x) k y = list_upd l k y.
Proof. induction l as [|a l IH]; intros [|k] x y; cbn; auto. f_equal. auto. Qed.
Lemma list_upd_comm {A} (l : list A) : forall k j x y, k <> j -> list_upd (list_upd l k x) j y = list_upd (list_upd l j y) k x.
Proof. induction l as [|a l IH]; intros [|k] [|j] x y D; cbn; auto; [congruence|]. f_equal. apply IH. congruence. Qed.
Lemma set_ang_comm o o' b x y : (o < 3)%nat -> (o' < 3)%nat -> o <> o' -> set_ang o' (set_ang o b x) y = set_ang o (set_ang o' b y) x.
Proof. intros. destruct o as [|[|[|o]]]; try lia; destruct o' as [|[|[|o']]]; try lia; reflexivity. Qed.
Lemma set_ang_twice o b x y : set_ang o (set_ang o b x) y = set_ang o b y.
Proof. destruct o as [|[|o]]; reflexivity. Qed.
Lemma vary_vary s m o x y : vary (vary s m o x) m o y = vary s m o y.
Proof.
  destruct (nth_error s m) as [b|] eqn:E; [|unfold vary; rewrite E, E; auto].
  unfold vary at 1. rewrite (vary_at _ _ _ _ _ E). unfold vary. rewrite E, list_upd_twice, set_ang_twice. auto.
Qed.
Lemma vary_comm s m o k i x y : (o < 3)%nat -> (i < 3)%nat -> (m, o) <> (k, i) -> vary (vary s m o x) k i y = vary (vary s k i y) m o x.
Proof.
  intros Ho Hi D. destruct (Nat.eq_dec m k) as [->|N].
  - destruct (nth_error s k) as [b|] eqn:E; [|unfold vary; rewrite E, E; auto].
    unfold vary at 1 3. rewrite !(vary_at _ _ _ _ _ E). unfold vary. rewrite E, !list_upd_twice. f_equal. apply set_ang_comm; auto; intros EE; apply D; rewrite EE; auto.
  - unfold vary at 1 3. rewrite !vary_other by auto. unfold vary. destruct (nth_error s m) eqn:Em, (nth_error s k) eqn:Ek; rewrite ?Em, ?Ek; auto. apply list_upd_comm; auto.
Qed.
Lemma vary_ang_other s m o k i x b b' : (o < 3)%nat -> (i < 3)%nat -> (m, o) <> (k, i) -> nth_error s k = Some b -> nth_error (vary s m o x) k = Some b' -> ang i b' = ang i b.
Proof.
  intros Ho Hi D E E'. destruct (Nat.eq_dec m k) as [->|N].
  - rewrite (vary_at _ _ _ _ _ E) in E'. injection E' as <-. destruct o as [|[|[|o]]]; try lia; destruct i as [|[|[|i]]]; try lia; try reflexivity; congruence.
  - rewrite vary_other in E' by auto. congruence.
Qed.

Section Fd.
Context (cs : list chain).
(** the objective as a function of the joints *)
Definition obj (s : skeleton) : R := match objective_at cs s with Some (f, _) => f | None => 0 end.
Context (S0 : skeleton) (HT : bone_tree S0) (HC : codes_ok S0) (HN : S0 <> []) (HS : forall c, In c cs -> serial S0 c).
(** same tree as S0, any angles and poses *)
Definition kin (s : skeleton) : Prop := bone_tree s /\ codes_ok s /\ length s = length S0 /\ map shape_of s = map shape_of S0.
Lemma kin_self : kin S0. Proof. split; [exact HT|split; [exact HC|split; reflexivity]]. Qed.
Lemma kin_vary s m o x : kin s -> kin (vary s m o x).
Proof. intros (A & B & C & D). split; [apply vary_tree; auto|split; [apply vary_codes; auto|split; [rewrite vary_length; auto|rewrite vary_shape; auto]]]. Qed.
Lemma kin_joints s s' : same_joints s s' -> kin s -> kin s'.
Proof.
  intros SJ (A & B & C & D). split; [eapply same_joints_tree; eauto|]. split; [eapply same_joints_codes; eauto|]. split; [rewrite <- (same_joints_length _ _ SJ); auto|].
  rewrite <- (strip_shape _ _ SJ). auto.
Qed.
Lemma objective_loop s l a : (forall c, In c l -> chain_fits s c) -> exists f, loop (objstep s) l a = Some f.
Proof.
  revert a. induction l as [|c l IH]; intros a H; cbn; [eauto|]. unfold objstep at 1, residual. destruct (end_effector_exists s c (H c (or_introl eq_refl))) as (e & ->).
  apply IH. intros; apply H; right; auto.
Qed.
Lemma obj_ok s : kin s -> exists s1, objective_at cs s = Some (obj s, s1) /\ same_joints s s1.
Proof.
  intros (A & B & C & D). assert (N : s <> []). { intros ->. destruct S0; [congruence|discriminate]. }
  destruct (update_skeleton_ok s A B N) as (s1 & U & SJ & _). exists s1. unfold obj, objective_at. rewrite U, objstep_eq.
  destruct (objective_loop s1 cs 0) as (f & ->).
  - intros c Hc. apply serial_fits; [eapply same_joints_tree; eauto|]. destruct (HS c Hc) as (k & P). exists k. eapply path_shape; [|exact P].
    rewrite <- (strip_shape _ _ SJ). auto.
  - split; auto.
Qed.
Lemma obj_joints s s' : kin s -> same_joints s s' -> obj s' = obj s.
Proof. intros (A & B & _) SJ. unfold obj. rewrite (objective_joints cs s s'); auto. Qed.

Lemma fd_first_ok s m o h b : same_joints S0 s -> (o < 3)%nat -> nth_error S0 m = Some b -> h <> 0 ->
  exists s', fd_first cs s (m * 3 + o) h = Some ((obj (vary S0 m o (ang o b + h)) - obj (vary S0 m o (ang o b - h))) / (2 * h), s') /\ same_joints S0 s'.
Proof.
  intros SJ Ho Hm Hh. assert (K : kin s) by (eapply kin_joints; eauto using kin_self). pose proof (proj1 (proj2 (proj2 K))) as LK.
  destruct (strip_nth _ _ _ _ SJ Hm) as (b' & Hm' & Sb). pose proof (nth_lt _ _ _ Hm) as Lm.
  unfold fd_first. rewrite (get_angle_nat s m o b' Hm' Ho). rewrite (strip_ang o _ _ Sb). set (t := ang o b).
  rewrite set_angle_vary by lia. destruct (obj_ok (vary s m o (t + h)) (kin_vary _ _ _ _ K)) as (s2 & E2 & J2). rewrite E2.
  assert (K2 : kin s2) by (eapply kin_joints; [exact J2|apply kin_vary; auto]). pose proof (proj1 (proj2 (proj2 K2))) as L2.
  rewrite set_angle_vary by lia. destruct (obj_ok (vary s2 m o (t - h)) (kin_vary _ _ _ _ K2)) as (s4 & E4 & J4). rewrite E4.
  assert (K4 : kin s4) by (eapply kin_joints; [exact J4|apply kin_vary; auto]). pose proof (proj1 (proj2 (proj2 K4))) as L4.
  rewrite set_angle_vary by lia. unfold Reqb. destruct (Req_EM_T h 0); [contradiction|].
  assert (V2 : same_joints (vary S0 m o (t - h)) (vary s2 m o (t - h))).
  { rewrite <- (vary_vary S0 m o (t + h) (t - h)). apply vary_joints. eapply same_joints_trans; [apply vary_joints; exact SJ|exact J2]. }
  exists (vary s4 m o t). split.
  - f_equal. f_equal. f_equal. f_equal.
    + apply obj_joints; [apply kin_vary, kin_self|apply vary_joints; auto].
    + apply obj_joints; [apply kin_vary, kin_self|exact V2].
  - assert (X : S0 = vary (vary S0 m o (t - h)) m o t) by (rewrite vary_vary; unfold t; symmetry; apply vary_same; auto).
    rewrite X at 1. apply vary_joints. eapply same_joints_trans; eauto.
Qed.

Lemma idx_split i : i = (i / 3 * 3 + i mod 3)%nat /\ (i mod 3 < 3)%nat.
Proof. pose proof (Nat.div_mod i 3 ltac:(lia)). pose proof (Nat.mod_upper_bound i 3 ltac:(lia)). lia. Qed.

Lemma fd_gradient_ok h : h <> 0 -> exists g s', fd_gradient cs S0 h = Some (g, s') /\ same_joints S0 s' /\ length g = (length S0 * 3)%nat /\
  forall m o b, nth_error S0 m = Some b -> (o < 3)%nat -> nth_error g (m * 3 + o) = Some ((obj (vary S0 m o (ang o b + h)) - obj (vary S0 m o (ang o b - h))) / (2 * h)).
Proof.
  intros Hh. unfold fd_gradient.
  assert (G : forall n a acc s, same_joints S0 s -> (a + n <= length S0 * 3)%nat -> length acc = a ->
     (forall m o b, nth_error S0 m = Some b -> (o < 3)%nat -> (m * 3 + o < a)%nat -> nth_error acc (m * 3 + o) = Some ((obj (vary S0 m o (ang o b + h)) - obj (vary S0 m o (ang o b - h))) / (2 * h))) ->
     exists g s', loop (fun st i => match fd_first cs (snd st) i h with Some (d, s') => Some (fst st ++ [d], s') | None => None end) (seq a n) (acc, s) = Some (g, s') /\ same_joints S0 s' /\ length g = (a + n)%nat /\
     forall m o b, nth_error S0 m = Some b -> (o < 3)%nat -> (m * 3 + o < a + n)%nat -> nth_error g (m * 3 + o) = Some ((obj (vary S0 m o (ang o b + h)) - obj (vary S0 m o (ang o b - h))) / (2 * h))).
  { induction n as [|n IH]; intros a acc s SJ Ha La Hacc.
    - exists acc, s. cbn. rewrite Nat.add_0_r. auto.
    - cbn [seq loop fst snd]. destruct (idx_split a) as [Ea Eo]. set (m := (a / 3)%nat) in *. set (o := (a mod 3)%nat) in *.
      destruct (nth_error S0 m) as [b|] eqn:Hm; [|apply nth_error_None in Hm; lia].
      destruct (fd_first_ok s m o h b SJ Eo Hm Hh) as (s1 & E1 & J1). rewrite <- Ea in E1. rewrite E1.
      destruct (IH (S a) (acc ++ [(obj (vary S0 m o (ang o b + h)) - obj (vary S0 m o (ang o b - h))) / (2 * h)]) s1 J1) as (g & s' & E & J & L & V); [lia|rewrite app_length; cbn; lia| |].
      + intros m' o' b' Hm' Ho' Lt. destruct (Nat.eq_dec (m' * 3 + o') a) as [Eq|Ne].
        * assert (m' = m /\ o' = o) as [-> ->] by lia. rewrite nth_error_app2 by lia. replace (m * 3 + o - length acc)%nat with 0%nat by lia. cbn. congruence.
        * rewrite nth_error_app1 by lia. apply Hacc; auto. lia.
      + exists g, s'. split; [exact E|]. split; [auto|]. split; [lia|]. intros. apply V; auto. lia. }
  destruct (G (length S0 * 3)%nat 0%nat [] S0) as (g & s' & E & J & L & V); [reflexivity|lia|reflexivity|intros; lia|].
  exists g, s'. split; [exact E|]. split; [auto|]. split; [auto|]. intros m o b Hm Ho. apply V; auto. apply nth_lt in Hm. lia.
Qed.

(** second differences *)
Lemma fd_second_diag_ok s m o h b : same_joints S0 s -> (o < 3)%nat -> nth_error S0 m = Some b -> h <> 0 ->
  exists s', fd_second cs s (m * 3 + o) (m * 3 + o) h = Some ((obj (vary S0 m o (ang o b + h)) - 2 * obj S0 + obj (vary S0 m o (ang o b - h))) / (h * h), s') /\ same_joints S0 s'.
Proof.
  intros SJ Ho Hm Hh. assert (K : kin s) by (eapply kin_joints; eauto using kin_self).
  pose proof (nth_lt _ _ _ Hm) as Lm. unfold fd_second. rewrite Nat.eqb_refl.
  destruct (obj_ok s K) as (s0 & E0 & J0). rewrite E0. pose proof (same_joints_trans _ _ _ SJ J0) as SJ0. pose proof (kin_joints _ _ J0 K) as K0. pose proof (proj1 (proj2 (proj2 K0))) as LK.
  destruct (strip_nth _ _ _ _ SJ0 Hm) as (b' & Hm' & Sb).
  rewrite (get_angle_nat s0 m o b' Hm' Ho). rewrite (strip_ang o _ _ Sb). set (t := ang o b).
  rewrite set_angle_vary by lia. destruct (obj_ok (vary s0 m o (t + h)) (kin_vary _ _ _ _ K0)) as (s2 & E2 & J2). rewrite E2.
  assert (K2 : kin s2) by (eapply kin_joints; [exact J2|apply kin_vary; auto]). pose proof (proj1 (proj2 (proj2 K2))) as L2.
  rewrite set_angle_vary by lia. destruct (obj_ok (vary s2 m o (t - h)) (kin_vary _ _ _ _ K2)) as (s4 & E4 & J4). rewrite E4.
  assert (K4 : kin s4) by (eapply kin_joints; [exact J4|apply kin_vary; auto]). pose proof (proj1 (proj2 (proj2 K4))) as L4.
  rewrite set_angle_vary by lia. unfold Reqb. destruct (Req_EM_T h 0); [contradiction|].
  assert (V2 : same_joints (vary S0 m o (t - h)) (vary s2 m o (t - h))).
  { rewrite <- (vary_vary S0 m o (t + h) (t - h)). apply vary_joints. eapply same_joints_trans; [apply vary_joints; exact SJ0|exact J2]. }
  exists (vary s4 m o t). split.
  - rewrite (obj_joints S0 s kin_self SJ). rewrite (obj_joints (vary S0 m o (t + h)) (vary s0 m o (t + h))); [|apply kin_vary, kin_self|apply vary_joints; auto].
    rewrite (obj_joints (vary S0 m o (t - h)) (vary s2 m o (t - h))); [|apply kin_vary, kin_self|exact V2]. reflexivity.
  - assert (X : S0 = vary (vary S0 m o (t - h)) m o t) by (rewrite vary_vary; unfold t; symmetry; apply vary_same; auto).
    rewrite X at 1. apply vary_joints. eapply same_joints_trans; eauto.
Qed.

Definition vary2 (s : skeleton) (m o k i : nat) (x y : R) : skeleton := vary (vary s m o x) k i y.
Lemma vary2_again s m o k i x y x' y' : (o < 3)%nat -> (i < 3)%nat -> (m, o) <> (k, i) -> vary2 (vary2 s m o k i x y) m o k i x' y' = vary2 s m o k i x' y'.
Proof. intros Ho Hi D. unfold vary2. rewrite (vary_comm (vary s m o x) k i m o) by congruence. rewrite vary_vary, vary_vary. auto. Qed.
Lemma vary2_joints s s' m o k i x y : same_joints s s' -> same_joints (vary2 s m o k i x y) (vary2 s' m o k i x y).
Proof. intros. unfold vary2. apply vary_joints, vary_joints; auto. Qed.
Lemma fd_second_mixed_ok s m o k i h b d : same_joints S0 s -> (o < 3)%nat -> (i < 3)%nat -> (m, o) <> (k, i) -> nth_error S0 m = Some b -> nth_error S0 k = Some d -> h <> 0 ->
  let F x y := obj (vary2 S0 m o k i x y) in let t := ang o b in let u := ang i d in
  exists s', fd_second cs s (m * 3 + o) (k * 3 + i) h = Some ((F (t + h) (u + h) - F (t + h) (u - h) - F (t - h) (u + h) + F (t - h) (u - h)) / (4 * h * h), s') /\ same_joints S0 s'.
Proof.
  intros SJ Ho Hi D Hm Hk Hh F t u. assert (K : kin s) by (eapply kin_joints; eauto using kin_self). pose proof (proj1 (proj2 (proj2 K))) as LK.
  pose proof (nth_lt _ _ _ Hm) as Lm. pose proof (nth_lt _ _ _ Hk) as Lk. unfold fd_second.
  replace (Nat.eqb (m * 3 + o) (k * 3 + i)) with false. 2:{ symmetry. apply Nat.eqb_neq. intros E. apply D. f_equal; lia. }
  destruct (strip_nth _ _ _ _ SJ Hm) as (b' & Hm' & Sb). destruct (strip_nth _ _ _ _ SJ Hk) as (d' & Hk' & Sd).
  rewrite (get_angle_nat s m o b' Hm' Ho), (get_angle_nat s k i d' Hk' Hi). rewrite (strip_ang o _ _ Sb), (strip_ang i _ _ Sd). fold t u.
  assert (STEP : forall s1 x1 y1 x y, same_joints (vary2 S0 m o k i x1 y1) s1 -> exists s2, set_angle (Z.of_nat (m * 3 + o)) x s1 = Some (vary s1 m o x) /\ set_angle (Z.of_nat (k * 3 + i)) y (vary s1 m o x) = Some (vary2 s1 m o k i x y) /\
            objective_at cs (vary2 s1 m o k i x y) = Some (F x y, s2) /\ same_joints (vary2 S0 m o k i x y) s2 /\ same_joints (vary2 S0 m o k i x y) (vary2 s1 m o k i x y)).
  { intros s1 x1 y1 x y J. assert (K1 : kin s1). { eapply kin_joints; [exact J|]. unfold vary2. apply kin_vary, kin_vary, kin_self. }
    pose proof (proj1 (proj2 (proj2 K1))) as L1.
    assert (J1 : same_joints (vary2 S0 m o k i x y) (vary2 s1 m o k i x y)). { rewrite <- (vary2_again S0 m o k i x1 y1 x y) by auto. apply vary2_joints; auto. }
    destruct (obj_ok (vary2 s1 m o k i x y)) as (s2 & E2 & J2); [unfold vary2; apply kin_vary, kin_vary; auto|].
    exists s2. split; [apply set_angle_vary; lia|]. split; [apply set_angle_vary; auto; rewrite vary_length; lia|]. split; [|split; [eapply same_joints_trans; eauto|auto]].
    rewrite E2. f_equal. f_equal. unfold F. apply obj_joints; auto. unfold vary2. apply kin_vary, kin_vary, kin_self. }
  assert (INI : same_joints (vary2 S0 m o k i t u) s).
  { unfold vary2. replace (vary S0 m o t) with S0 by (symmetry; apply vary_same; auto). replace (vary S0 k i u) with S0 by (symmetry; apply vary_same; auto). auto. }
  destruct (STEP s t u (t + h) (u + h) INI) as (s3 & A1 & A2 & A3 & A4 & _). rewrite A1, A2, A3.
  destruct (STEP s3 _ _ (t - h) (u + h) A4) as (s6 & B1 & B2 & B3 & B4 & _). rewrite B1, B2, B3.
  destruct (STEP s6 _ _ (t + h) (u - h) B4) as (s9 & C1 & C2 & C3 & C4 & _). rewrite C1, C2, C3.
  destruct (STEP s9 _ _ (t - h) (u - h) C4) as (s12 & D1 & D2 & D3 & D4 & _). rewrite D1, D2, D3.
  destruct (STEP s12 _ _ t u D4) as (s15 & E1 & E2 & _ & _ & E4). rewrite E1, E2.
  unfold Reqb. destruct (Req_EM_T h 0); [contradiction|].
  exists (vary2 s12 m o k i t u). split; [reflexivity|]. 
  replace (vary2 S0 m o k i t u) with S0 in E4; auto. unfold vary2. replace (vary S0 m o t) with S0 by (symmetry; apply vary_same; auto). symmetry. apply vary_same; auto.
Qed.
End Fd.
