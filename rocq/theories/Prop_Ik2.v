(** Inverse kinematics: joint angles (C90), derivatives (C91 - C93), finite differences (C94, C95). *)
From Verif Require Import Base VecModel QuatModel QuatProofs BvhModel BvhProofs IkModel IkSpec IkProofs IkPose IkDeriv IkJac IkGrad IkHess IkHess2 IkFd FdLimits IkCont IkFd2 Prop_Ik.
Open Scope R_scope.

(** ** C90: reading and writing joint angles *)
Lemma list_upd_app {A} (l l' : list A) x y : list_upd (l ++ y :: l') (length l) x = l ++ x :: l'.
Proof. induction l as [|a l IH]; cbn; auto. f_equal. auto. Qed.
Lemma all_angles_length s : length (all_angles s) = (length s * 3)%nat.
Proof. induction s as [|b s IH]; [reflexivity|]. unfold all_angles in *. cbn [flat_map]. rewrite app_length, IH. cbn. lia. Qed.
Lemma all_angles_app s t : all_angles (s ++ t) = all_angles s ++ all_angles t.
Proof. unfold all_angles. apply flat_map_app. Qed.
Lemma all_angles_at s k b o : nth_error s k = Some b -> (o < 3)%nat -> nth_error (all_angles s) (k * 3 + o) = Some (ang o b).
Proof.
  revert k. induction s as [|c s IH]; intros [|k] H Ho; cbn in H; try discriminate.
  - injection H as ->. destruct o as [|[|[|o]]]; try lia; reflexivity.
  - replace (S k * 3 + o)%nat with (S (S (S (k * 3 + o)))) by lia. apply IH; auto.
Qed.
Lemma arr_set_at l l' x y : arr_set (l ++ y :: l') (length l) x = Some (l ++ x :: l').
Proof. unfold arr_set. replace (Nat.ltb (length l) (length (l ++ y :: l'))) with true; [rewrite list_upd_app; auto|]. symmetry. apply Nat.ltb_lt. rewrite app_length. cbn. lia. Qed.
Theorem C90_get s : built s -> get_joint_angles s = Some (all_angles s) /\ length (all_angles s) = (3 * length s)%nat /\
  forall i, (i < 3 * length s)%nat -> get_angle (Z.of_nat i) s = nth_error (all_angles s) i.
Proof.
  intros HB. pose proof (built_tree s HB) as HT. split; [|split; [rewrite all_angles_length; lia|]].
  - unfold get_joint_angles.
    match goal with |- loop ?f s _ = _ => assert (G : forall post pre, s = pre ++ post -> loop f post (all_angles pre ++ repeat 0 (length post * 3)) = Some (all_angles s)) end.
    { induction post as [|b post IH]; intros pre E.
      - cbn. rewrite app_nil_r in *. congruence.
      - assert (Ix : bn_idx b = length pre). { apply (bt_idx s HT). rewrite E, nth_error_app2, Nat.sub_diag by lia. reflexivity. }
        cbn [loop length]. rewrite Ix. replace (length pre * 3 + 0)%nat with (length (all_angles pre)) by (rewrite all_angles_length; lia).
        change (repeat 0 (S (length post) * 3)) with (0 :: 0 :: 0 :: repeat 0 (length post * 3)). rewrite arr_set_at.
        replace (length pre * 3 + 1)%nat with (length (all_angles pre ++ [bn_alpha b])) by (rewrite app_length, all_angles_length; cbn; lia).
        change (all_angles pre ++ bn_alpha b :: 0 :: 0 :: repeat 0 (length post * 3)) with (all_angles pre ++ [bn_alpha b] ++ 0 :: 0 :: repeat 0 (length post * 3)). rewrite app_assoc, arr_set_at.
        replace (length pre * 3 + 2)%nat with (length ((all_angles pre ++ [bn_alpha b]) ++ [bn_beta b])) by (rewrite !app_length, all_angles_length; cbn; lia).
        change ((all_angles pre ++ [bn_alpha b]) ++ bn_beta b :: 0 :: repeat 0 (length post * 3)) with ((all_angles pre ++ [bn_alpha b]) ++ [bn_beta b] ++ 0 :: repeat 0 (length post * 3)). rewrite (app_assoc _ [bn_beta b]), arr_set_at.
        rewrite <- (IH (pre ++ [b])) by (rewrite <- app_assoc; auto). f_equal. rewrite all_angles_app, <- !app_assoc. reflexivity. }
    apply (G s []); auto.
  - intros i Hi. destruct (idx_split i) as [E L]. destruct (nth_error s (i / 3)) as [b|] eqn:Eb; [|apply nth_error_None in Eb; lia].
    rewrite E. rewrite (get_angle_nat s _ _ b Eb L), (all_angles_at s _ b _ Eb L). auto.
Qed.

Lemma skipn_add {A} a b (l : list A) : skipn (a + b) l = skipn b (skipn a l).
Proof. revert l. induction a as [|a IH]; intros l; cbn; auto. destruct l; auto. rewrite skipn_nil. auto. Qed.
Lemma set_angles_ok l : forall s off, (forall k b, nth_error s k = Some b -> bn_idx b = (off + k)%nat) -> (3 * (off + length s) <= length l)%nat ->
  snd (set_joint_angles s l) = true /\ map but_angles (fst (set_joint_angles s l)) = map but_angles s /\ all_angles (fst (set_joint_angles s l)) = firstn (3 * length s) (skipn (3 * off) l).
Proof.
  induction s as [|b s IH]; intros off HI HL; [cbn; auto|]. cbn [set_joint_angles].
  assert (Ib : bn_idx b = off) by (rewrite (HI 0%nat b eq_refl); lia). cbn [length] in HL.
  assert (SP : exists x y z l', skipn (3 * off) l = x :: y :: z :: l').
  { pose proof (skipn_length (3 * off) l) as X. destruct (skipn (3 * off) l) as [|x [|y [|z l']]]; cbn in X; try lia. eauto. }
  destruct SP as (x & y & z & l' & SP).
  assert (NX : forall j, nth_error l (off * 3 + j) = nth_error (x :: y :: z :: l') j).
  { intros j. rewrite <- SP. replace (off * 3 + j)%nat with (3 * off + j)%nat by lia. rewrite <- (firstn_skipn (3 * off) l) at 1. rewrite nth_error_app2; rewrite firstn_length_le by lia; [f_equal; lia|lia]. }
  unfold set_bone_angles. rewrite Ib, !NX. cbn [nth_error].
  destruct (IH (S off)) as (I1 & I2 & I3); [intros k b' Hk; rewrite (HI (S k) b' Hk); lia|lia|].
  destruct (set_joint_angles s l) as [s'' ok'] eqn:ES. cbn [fst snd] in *. subst ok'. split; [auto|]. split; [cbn [map]; rewrite I2; reflexivity|].
  unfold all_angles in *. cbn [flat_map]. rewrite I3. replace (3 * S off)%nat with (3 * off + 3)%nat by lia. rewrite skipn_add, SP. cbn [length].
  replace (3 * S (length s))%nat with (S (S (S (3 * length s)))) by lia. reflexivity.
Qed.
(** writing an array that is long enough: those angles, nothing else changed *)
Theorem C90_set s l : built s -> (3 * length s <= length l)%nat -> exists s', set_joint_angles s l = (s', true) /\
  map but_angles s' = map but_angles s /\ all_angles s' = firstn (3 * length s) l /\ get_joint_angles s' = Some (firstn (3 * length s) l).
Proof.
  intros HB HL. destruct (set_angles_ok l s 0) as (A & B & C); [intros k b Hb; apply (bt_idx s (built_tree s HB)); auto|lia|].
  pose proof (built_angles s l HB) as HB'. destruct (set_joint_angles s l) as [s' ok] eqn:E. cbn [fst snd] in *. subst ok. exists s'. rewrite Nat.mul_0_r in C. cbn [skipn] in C.
  split; [auto|]. split; [auto|]. split; [auto|]. rewrite <- C. apply C90_get; auto.
Qed.
Lemma angles_ext s : forall t, map but_angles s = map but_angles t -> all_angles s = all_angles t -> s = t.
Proof.
  induction s as [|b s IH]; intros [|c t] H A; try discriminate; auto. cbn in H, A. injection H as H1 H2 H3 H4 H5 H6 H7 H8. injection A as A1 A2 A3 A4.
  f_equal; [destruct b, c; cbn in *; congruence|]. apply IH; auto.
Qed.
(** writing back what was read changes nothing *)
Theorem C90_round_trip s l : built s -> get_joint_angles s = Some l -> set_joint_angles s l = (s, true).
Proof.
  intros HB G. rewrite (proj1 (C90_get s HB)) in G. injection G as <-. destruct (C90_set s (all_angles s) HB) as (s' & E & B & A & _); [rewrite all_angles_length; lia|].
  rewrite E. f_equal. apply angles_ext; auto. rewrite A. apply firstn_all2. rewrite all_angles_length. lia.
Qed.
(** an array that is too short raises *)
Lemma short_raises l : forall s off, (3 * off <= length l)%nat -> (forall k b, nth_error s k = Some b -> bn_idx b = (off + k)%nat) -> (length l < 3 * (off + length s))%nat -> snd (set_joint_angles s l) = false.
Proof.
  induction s as [|b s IH]; intros off H0 HI HL; [cbn in HL; lia|].
  cbn [set_joint_angles]. destruct (set_bone_angles l b) as [b' [|]] eqn:E; [|reflexivity].
  assert (LL : (3 * S off <= length l)%nat).
  { unfold set_bone_angles in E. rewrite (HI 0%nat b eq_refl) in E. destruct (nth_error l ((off + 0) * 3 + 0)); [|discriminate]. destruct (nth_error l ((off + 0) * 3 + 1)); [|discriminate].
    destruct (nth_error l ((off + 0) * 3 + 2)) eqn:E2; [|discriminate]. apply nth_lt in E2. lia. }
  specialize (IH (S off) LL). destruct (set_joint_angles s l) as [s'' ok']. cbn [snd] in *. apply IH; [intros k c Hk; rewrite (HI (S k) c Hk); lia|cbn [length] in HL; lia].
Qed.
Theorem C90_short s l : built s -> (length l < 3 * length s)%nat -> snd (set_joint_angles s l) = false.
Proof.
  intros HB HL. pose proof (built_tree s HB) as HT. apply (short_raises l s 0); [lia|intros; apply (bt_idx s HT); auto|lia].
Qed.
(** ... but not before the first bones have been changed *)
Theorem C90_short_unchanged_refuted : ~ (forall s l s', built s -> set_joint_angles s l = (s', false) -> s' = s).
Proof.
  intros H. pose proof (H ex_skeleton [1] _ ex_built eq_refl) as X. unfold ex_skeleton in X. injection X as X. lra.
Qed.
(** single angles: index i addresses angle i mod 3 of bone i / 3, negative indices count from the end *)
Theorem C90_single s i x : built s -> (- Z.of_nat (3 * length s) <= i < Z.of_nat (3 * length s))%Z ->
  exists s', set_angle i x s = Some s' /\ map but_angles s' = map but_angles s /\ get_angle i s' = Some x /\
    let k := Z.to_nat (if Z.ltb i 0 then i + Z.of_nat (3 * length s) else i) in
    forall j, nth_error (all_angles s') j = if Nat.eqb j k then Some x else nth_error (all_angles s) j.
Proof.
  intros HB HR. set (k := Z.to_nat (if Z.ltb i 0 then i + Z.of_nat (3 * length s) else i)).
  assert (KL : (k < length s * 3)%nat) by (unfold k; destruct (Z.ltb_spec i 0); lia).
  destruct (idx_split k) as [Ek Eo]. set (m := (k / 3)%nat) in *. set (o := (k mod 3)%nat) in *. assert (Lm : (m < length s)%nat) by lia.
  assert (DIV : py_idx s (i / 3) = Some m /\ (i mod 3 = Z.of_nat o)%Z).
  { destruct (Z.ltb_spec i 0) as [Ni|Pi].
    - assert (Ei : i = (Z.of_nat o + (Z.of_nat m - Z.of_nat (length s)) * 3)%Z) by (unfold k in Ek; lia). rewrite Ei. rewrite Z.div_add, Z.mod_add by lia. rewrite Z.div_small, Z.mod_small by lia. split; auto.
      unfold py_idx. replace (0 + (Z.of_nat m - Z.of_nat (length s)))%Z with (Z.of_nat m - Z.of_nat (length s))%Z by lia.
      destruct (Z.ltb_spec (Z.of_nat m - Z.of_nat (length s)) 0) as [N|N]; [|lia]. cbn zeta.
      destruct (Z.ltb_spec (Z.of_nat m - Z.of_nat (length s) + Z.of_nat (length s)) 0) as [Q|Q]; [lia|]. cbn [orb].
      destruct (Z.leb_spec (Z.of_nat (length s)) (Z.of_nat m - Z.of_nat (length s) + Z.of_nat (length s))) as [W|W]; [lia|]. f_equal. lia.
    - assert (Ei : i = Z.of_nat (m * 3 + o)) by (unfold k in Ek; lia). rewrite Ei. destruct (pos_mod3 m o Eo) as [-> ->]. rewrite py_idx_nat by auto. auto. }
  destruct DIV as [D1 D2]. destruct (nth_error s m) as [b|] eqn:Hm; [|apply nth_error_None in Hm; lia].
  assert (SE : set_angle i x s = Some (vary s m o x)).
  { unfold set_angle, vary. rewrite D1, Hm, D2. destruct o as [|[|[|o']]]; try lia; reflexivity. }
  exists (vary s m o x). split; [exact SE|]. split; [unfold vary; rewrite Hm; eapply map_upd; eauto; destruct o as [|[|o']]; reflexivity|]. split.
  - unfold get_angle, py_get. assert (D1' : py_idx (vary s m o x) (i / 3) = Some m). { rewrite <- D1. unfold py_idx. rewrite vary_length. auto. }
    rewrite D1', (vary_at s m o x b Hm), D2. destruct o as [|[|[|o']]]; try lia; reflexivity.
  - cbn zeta. intros j. destruct (Nat.lt_ge_cases j (length s * 3)) as [Lj|Lj].
    + destruct (idx_split j) as [Ej Ej']. set (mj := (j / 3)%nat) in *. set (oj := (j mod 3)%nat) in *. destruct (nth_error s mj) as [bj|] eqn:Hj; [|apply nth_error_None in Hj; lia].
      destruct (Nat.eqb_spec j k) as [Eq|Ne].
      * assert (mj = m /\ oj = o) as [-> ->] by lia. rewrite Ej. rewrite (all_angles_at _ m (set_ang o b x) o); [destruct o as [|[|[|o']]]; try lia; reflexivity|apply vary_at; auto|auto].
      * rewrite Ej. rewrite (all_angles_at s mj bj oj Hj Ej'). assert (V : exists b', nth_error (vary s m o x) mj = Some b') by (destruct (nth_error (vary s m o x) mj) eqn:V; [eauto|apply nth_error_None in V; rewrite vary_length in V; lia]).
        destruct V as (b' & V). rewrite (all_angles_at _ mj b' oj V Ej'). f_equal. apply (vary_ang_other s m o mj oj x bj b' Eo Ej'); auto. intros Q. clearbody m o mj oj. injection Q as -> ->. lia.
    + rewrite (proj2 (nth_error_None _ _)) by (rewrite all_angles_length, vary_length; lia). replace (Nat.eqb j k) with false by (symmetry; apply Nat.eqb_neq; lia).
      symmetry. apply nth_error_None. rewrite all_angles_length. lia.
Qed.
Lemma C90_nonvacuous : get_joint_angles ex_skeleton = Some [0; 0; 0; 1; 2; 3; 0; 1; 0; 0; 0; 1] /\ get_angle 5 ex_skeleton = Some 3 /\ get_angle (-1) ex_skeleton = Some 1.
Proof. split; [reflexivity|split; reflexivity]. Qed.
Print Assumptions C90_get.
Print Assumptions C90_set.
Print Assumptions C90_round_trip.
Print Assumptions C90_short.
Print Assumptions C90_short_unchanged_refuted.
Print Assumptions C90_single.
