(** C142: a tower of bricks. *)
From Verif Require Import Base QuatModel QuatProofs VecModel VecProofs BvhModel BvhSpec GridModel VolModel RigidTypes RigidSpec CollModel BaryModel MassModel MassSpec MassProofs MassProofs2 Prop_Mass
  StepModel StepProofs StepProofs2 ReadySpec ReadyProofs ConSpec ApiModel ApiSpec ApiProofs RotModel RotProofs QuatMatProofs Prop_Rotation Prop_Api Prop_Api2
  ProxProofs SurfModel SurfSpec SceneModel SceneSpec SceneMesh SceneProofs SceneShape SceneBox SceneTrap ScenePlace Prop_Scene Prop_SceneLattice.
From Coq Require Import Permutation.
Open Scope R_scope.

(** ** what is built *)
(** the slope of the sides of a brick: its half-width at distance z from the axis of the tower is at most slope * z *)
Definition slope (segments : nat) (safety : R) : R := safety * tan (PI / INR segments).
(** a brick, its inner face in front: a box as wide as fits at the inner radius, or a wedge *)
Definition wall_brick (outer inner h t : R) (use_cubes : bool) : list vec3 * list tri :=
  let d := outer - inner in
  if use_cubes then create_box (2 * (t * inner)) h d else
  create_cuboid (mkV (- (t * inner)) (- h / 2) (d / 2)) (mkV (t * inner) (- h / 2) (d / 2)) (mkV (t * inner) (h / 2) (d / 2)) (mkV (- (t * inner)) (h / 2) (d / 2))
                (mkV (- (t * outer)) (- h / 2) (- d / 2)) (mkV (t * outer) (- h / 2) (- d / 2)) (mkV (t * outer) (h / 2) (- d / 2)) (mkV (- (t * outer)) (h / 2) (- d / 2)).
Definition brick_volume (outer inner h t : R) (use_cubes : bool) : R :=
  if use_cubes then 2 * (t * inner) * h * (outer - inner) else (t * inner + t * outer) * h * (outer - inner).
Definition big_brick (outer inner h t : R) (use_cubes : bool) : Prop :=
  if use_cubes then big_box (2 * (t * inner)) h (outer - inner) else big_trap (t * inner) (t * outer) h (outer - inner).
(** the direction of brick number seg of layer lay: every second layer is turned by half a brick *)
Definition brick_angle (segments lay seg : nat) : R := 2 * PI / INR segments * (INR seg + if Nat.even lay then 1 / 2 else 0).
Definition brick_centre (outer inner h angle : R) (lay : nat) : vec3 :=
  mkV (- ((outer + inner) / 2 * sin angle)) ((INR lay + 1 / 2) * h) (- ((outer + inner) / 2 * cos angle)).

Lemma half_angle segments : (3 <= segments)%nat -> 0 < PI / INR segments /\ PI / INR segments <= PI / 3.
Proof.
  intros H. pose proof PI_RGT_0 as P. assert (L : 3 <= INR segments). { replace 3 with (INR 3) by (cbn; ring). apply le_INR. exact H. }
  split; [apply Rdiv_lt_0_compat; lra|]. unfold Rdiv. apply Rmult_le_compat_l; [lra|]. apply Rinv_le_contravar; lra.
Qed.
Lemma slope_pos segments safety : (3 <= segments)%nat -> 0 < safety -> 0 < slope segments safety.
Proof. intros H Hs. destruct (half_angle segments H). pose proof PI_RGT_0. apply Rmult_lt_0_compat; auto. apply tan_gt_0; lra. Qed.
Lemma code_slope segments x : (3 <= segments)%nat -> sin (2 * PI / INR segments / 2) / sin (PI / 2 - 2 * PI / INR segments / 2) * x = tan (PI / INR segments) * x.
Proof.
  intros H. assert (L : 3 <= INR segments). { replace 3 with (INR 3) by (cbn; ring). apply le_INR. exact H. }
  replace (2 * PI / INR segments / 2) with (PI / INR segments) by (field; lra). rewrite sin_shift. reflexivity.
Qed.
Lemma brick_eq outer inner height layers segments use_cubes safety : (3 <= segments)%nat ->
  tower_brick outer inner height layers segments use_cubes safety = wall_brick outer inner (height / INR layers) (slope segments safety) use_cubes.
Proof.
  intros H. unfold tower_brick, wall_brick, slope. destruct use_cubes.
  - f_equal. rewrite !Rmult_assoc, code_slope by auto. ring.
  - cbv zeta. unfold half_width. 
    assert (E : forall x, sin (2 * PI / INR segments / 2) / sin (PI / 2 - 2 * PI / INR segments / 2) * x * safety = safety * tan (PI / INR segments) * x) by (intros x; rewrite code_slope by auto; ring).
    rewrite !E. reflexivity.
Qed.
Lemma brick_good outer inner h t use_cubes : 0 < inner -> inner < outer -> 0 < h -> 0 < t -> good_stone (fst (wall_brick outer inner h t use_cubes)) (snd (wall_brick outer inner h t use_cubes)).
Proof.
  intros Hi Ho Hh Ht. assert (0 < t * inner) by (apply Rmult_lt_0_compat; auto). assert (0 < t * outer) by (apply Rmult_lt_0_compat; lra).
  destruct use_cubes; [apply box_good; lra|]. apply (trap_good (t * inner) (t * outer) h (outer - inner)); lra.
Qed.
Lemma brick_vol outer inner h t use_cubes : volume (fst (wall_brick outer inner h t use_cubes)) (snd (wall_brick outer inner h t use_cubes)) = brick_volume outer inner h t use_cubes.
Proof. destruct use_cubes; [apply box_volume|]. apply (trap_volume (t * inner) (t * outer) h (outer - inner)). Qed.
Lemma brick_counted outer inner h t use_cubes : 0 < inner -> inner < outer -> 0 < h -> 0 < t -> big_brick outer inner h t use_cubes ->
  counted_stone (fst (wall_brick outer inner h t use_cubes)) (snd (wall_brick outer inner h t use_cubes)).
Proof.
  intros Hi Ho Hh Ht HB. assert (0 < t * inner) by (apply Rmult_lt_0_compat; auto). assert (0 < t * outer) by (apply Rmult_lt_0_compat; lra).
  destruct use_cubes; [apply box_counted; [lra|lra|lra|exact HB]|]. apply (trap_counted (t * inner) (t * outer) h (outer - inner)); try lra. exact HB.
Qed.
Lemma angle_eq segments lay seg : tower_angle segments lay seg = brick_angle segments lay seg.
Proof.
  unfold tower_angle, brick_angle. rewrite <- Nat.bit0_mod. rewrite Nat.bit0_odd. rewrite <- Nat.negb_even. destruct (Nat.even lay); cbn; unfold Rdiv; ring.
Qed.
Lemma grid_length layers segments : length (tower_grid layers segments) = (layers * segments)%nat.
Proof. unfold tower_grid. rewrite (flat_map_len _ segments); [rewrite seq_length; reflexivity|]. intros a _. rewrite map_length, seq_length. reflexivity. Qed.
Lemma grid_nth layers segments lay seg : (lay < layers)%nat -> (seg < segments)%nat -> nth_error (tower_grid layers segments) (lay * segments + seg) = Some (lay, seg).
Proof.
  intros H1 H2. unfold tower_grid. rewrite (nth_flat_map _ segments (seq 0 layers) lay seg lay); [|intros; rewrite map_length, seq_length; reflexivity|apply seq_nth_error; auto|auto].
  rewrite nth_error_map, seq_nth_error by auto. reflexivity.
Qed.
Lemma q_prod_unit p q : is_unit p -> is_unit q -> is_unit (q_prod p q).
Proof. intros P Q. unfold is_unit in *. rewrite qdot_prod, P, Q. ring. Qed.

Theorem C142_tower eig sd e fresh r q outer inner height layers segments use_cubes density mat safety : eig_diagonal eig -> reach eig sd sane_params e -> (2 <= p_resolution (e_params e))%Z ->
  new_names e fresh -> exist_material (e_lib e) mat = true -> is_unit q -> 0 < inner -> inner < outer -> 0 < height -> (1 <= layers)%nat -> (3 <= segments)%nat -> 0 < safety ->
  let h := height / INR layers in let t := slope segments safety in
  exists e' names, create_tower eig sd fresh r q outer inner height layers segments use_cubes density mat safety e = (Done e', names) /\ reach eig sd sane_params e' /\
    adds e e' names /\ e_hinges e' = e_hinges e /\ length names = (layers * segments)%nat /\ NoDup names /\ names_from fresh e e' names /\
    (forall lay seg, (lay < layers)%nat -> (seg < segments)%nat -> exists n, nth_error names (lay * segments + seg) = Some n /\
       let angle := brick_angle segments lay seg in
       stands e' n (wall_brick outer inner h t use_cubes) (at_pose r q (brick_centre outer inner h angle lay)) (q_prod q (q_Ry angle)) /\
       exists m, pos_up_to_clamp (brick_volume outer inner h t use_cubes) m /\ at_rest e' n false mat (m * density)) /\
    (set_up e -> density <> 0 -> big_brick outer inner h t use_cubes -> set_up e').
Proof.
  intros HE HR HN (HI & HF) HM HQ Hi Ho Hh HL HS Hs h t.
  assert (Ph : 0 < h). { apply Rdiv_lt_0_compat; auto. apply lt_0_INR. lia. }
  assert (Pt : 0 < t) by (apply slope_pos; auto).
  set (V := fst (wall_brick outer inner h t use_cubes)). set (T := snd (wall_brick outer inner h t use_cubes)).
  destruct (make_one_shape eig sd e (fresh 0%nat) V T HE HR HN (proj2 (HF 0%nat)) (brick_good outer inner h t use_cubes Hi Ho Ph Pt)) as (s & ES & R1 & EN & FS & IS).
  set (e1 := set_shapes e (e_shapes e ++ [s])) in *.
  set (it := fun mg : nat * (nat * nat) => let '(m, (lay, seg)) := mg in
       let '(rl, ql) := tower_place outer inner height layers segments lay seg in
       let '(rg, qg) := in_world r q rl ql in (fresh (S m), fresh 0%nat, rg, qg) : item).
  set (l := map it (number (tower_grid layers segments))).
  assert (EM : map it_name l = map (fun m => fresh (S m)) (seq 0 (layers * segments))).
  { unfold l. rewrite map_map. rewrite (number_map _ (fun m => fresh (S m))); [rewrite grid_length; reflexivity|]. intros m [lay seg]. reflexivity. }
  assert (SH : forall x, In x l -> it_shape x = fresh 0%nat). { intros x Hx. apply in_map_iff in Hx as ([m [lay seg]] & <- & _). reflexivity. }
  assert (NM : forall x, In x l -> exists m, it_name x = fresh (S m)). { intros x Hx. apply in_map_iff in Hx as ([m [lay seg]] & <- & _). exists m. reflexivity. }
  assert (ND : NoDup (map (fun m => fresh (S m)) (seq 0 (layers * segments)))). { apply FinFun.Injective_map_NoDup; [|apply seq_NoDup]. intros a b H. apply HI in H. lia. }
  assert (NI : forall x, In x l -> ~ In (it_name x) (map b_name (e_bodies e))). { intros x Hx. destruct (NM x Hx) as (m & ->). exact (proj1 (HF (S m))). }
  destruct (place_finish_ok eig sd l mat density e1 R1) as (bs & EE & FB & R2).
  { intros x Hx. rewrite (SH x Hx). exists s. exact FS. }
  { rewrite EM. exact ND. }
  { exact NI. }
  { exact HM. }
  change (e_bodies e1) with (e_bodies e) in *. set (mesh := fun _ : name => (V, T)).
  destruct (builder_result eig sd e [s] false mat density mesh l bs R2 NI FB) as (HA & HH & HST & HU).
  { intros x s' Hx Hs'. rewrite (SH x Hx) in Hs'. fold e1 in Hs'. rewrite FS in Hs'. apply some_eq in Hs'. subst s'. exact IS. }
  fold e1 in HA, HH, HST, HU.
  exists (set_bodies e1 (e_bodies e ++ bs)), (map (fun m => fresh (S m)) (seq 0 (layers * segments))).
  split. { unfold create_tower. apply f_equal2; [|reflexivity]. rewrite brick_eq by auto. fold h t. change (wall_brick outer inner h t use_cubes) with (fst (wall_brick outer inner h t use_cubes), snd (wall_brick outer inner h t use_cubes)) || rewrite (surjective_pairing (wall_brick outer inner h t use_cubes)). fold V T.
    rewrite ES. cbn [andthen]. fold e1. rewrite EM in EE. exact EE. }
  split; [exact R2|]. split; [rewrite <- EM; exact HA|]. split; [exact HH|].
  split; [rewrite map_length, seq_length; reflexivity|]. split; [exact ND|]. split.
  { split; [intros n Hn; apply in_map_iff in Hn as (m & <- & _); exists (S m); reflexivity|]. intros m Hm. cbn [set_bodies set_shapes e_shapes e1] in Hm. rewrite map_app, in_app_iff in Hm.
    destruct Hm as [Hm|[Hm|[]]]; [left; exact Hm|right; exists 0%nat; congruence]. }
  split.
  - intros lay seg Hlay Hseg. set (m := (lay * segments + seg)%nat). exists (fresh (S m)).
    assert (LT : (m < layers * segments)%nat) by (unfold m; nia).
    split; [rewrite nth_error_map, seq_nth_error by exact LT; reflexivity|]. cbv zeta.
    assert (HX : In (it (m, (lay, seg))) l). { unfold l. apply in_map. eapply nth_error_In. apply number_nth. apply grid_nth; auto. }
    destruct (HST _ HX) as [H1 (k & H2 & H3)]. unfold it in H1, H2, H3. unfold tower_place, in_world in H1, H2, H3. cbn [it_name it_shape it_r it_q mesh fst snd] in H1, H2, H3.
    rewrite angle_eq in H1. fold h in H1. set (ang := brick_angle segments lay seg) in *.
    assert (EC : q_rotate (q_Ry ang) (mkV 0 (h / 2 + INR lay * h) (- ((outer + inner) / 2))) = brick_centre outer inner h ang lay).
    { rewrite Ry_rotate. unfold brick_centre. cbn [vx vy vz]. apply (f_equal3 mkV); field. }
    rewrite EC in H1. split.
    + unfold mesh in H1. unfold V, T in H1. rewrite <- (surjective_pairing (wall_brick outer inner h t use_cubes)) in H1. apply H1. apply q_prod_unit; [exact HQ|apply Ry_unit].
    + exists k. split; [|exact H3]. rewrite <- brick_vol. exact H2.
  - intros U D B. apply HU; auto. intros x _. apply brick_counted; auto.
Qed.

(** ** the bricks do not overlap *)
Lemma sector_apart al de z1 u1 z2 u2 : 0 < al < PI / 2 -> 2 * al <= de <= 2 * PI - 2 * al -> 0 < z1 -> Rabs u1 < tan al * z1 -> Rabs u2 < tan al * z2 ->
  z2 = z1 * cos de - u1 * sin de -> u2 = z1 * sin de + u1 * cos de -> False.
Proof.
  intros [A0 A1] [D0 D1] Z1 U1 U2 EZ EU. set (ph := atan (u1 / z1)). destruct (atan_bound (u1 / z1)) as [P0 P1]. fold ph in P0, P1.
  assert (TP : tan ph = u1 / z1) by apply tan_atan. clearbody ph. pose proof PI_RGT_0 as PP.
  assert (B : - tan al < u1 / z1 < tan al). { apply Rabs_def2 in U1. destruct U1 as [U1 U1']. split; (apply (Rmult_lt_reg_r z1); [lra|]; replace (u1 / z1 * z1) with u1 by (field; lra); lra). }
  assert (Q1 : ph < al). { destruct (Rlt_le_dec ph al) as [L|L]; auto. exfalso. assert (tan al <= tan ph). { destruct L as [L| ->]; [apply Rlt_le, tan_increasing; lra|lra]. } lra. }
  assert (Q2 : - al < ph). { destruct (Rlt_le_dec (- al) ph) as [L|L]; auto. exfalso. assert (tan ph <= tan (- al)). { destruct L as [L|L]; [apply Rlt_le, tan_increasing; lra|rewrite L; lra]. } rewrite tan_neg in H. lra. }
  assert (C : 0 < cos ph) by (apply cos_gt_0; lra). set (rho := z1 / cos ph). assert (RP : 0 < rho) by (apply Rdiv_lt_0_compat; auto).
  assert (E1 : z1 = rho * cos ph) by (unfold rho; field; lra).
  assert (E2 : u1 = rho * sin ph). { transitivity (z1 * tan ph); [rewrite TP; field; lra|]. unfold rho, tan. field. lra. }
  assert (F1 : z2 = rho * cos (ph + de)) by (rewrite EZ, E1, E2, cos_plus; ring). assert (F2 : u2 = rho * sin (ph + de)) by (rewrite EU, E1, E2, sin_plus; ring).
  assert (CA : 0 < cos al) by (apply cos_gt_0; lra).
  assert (K : rho * sin (ph + de) * cos al < sin al * (rho * cos (ph + de)) /\ - (sin al * (rho * cos (ph + de))) < rho * sin (ph + de) * cos al).
  { rewrite <- F1, <- F2. apply Rabs_def2 in U2. destruct U2 as [U2 U2']. assert (ET : sin al * z2 = tan al * z2 * cos al) by (unfold tan; field; lra). rewrite ET.
    split; [apply Rmult_lt_compat_r; auto|]. replace (- (tan al * z2 * cos al)) with (- (tan al * z2) * cos al) by ring. apply Rmult_lt_compat_r; auto. }
  destruct K as [K1 K2]. set (ps := ph + de) in *.
  assert (S1 : sin (ps - al) < 0). { rewrite sin_minus. apply (Rmult_lt_reg_l rho); [auto|]. lra. }
  assert (S2 : 0 < sin (ps + al)). { rewrite sin_plus. apply (Rmult_lt_reg_l rho); [auto|]. lra. }
  assert (G1 : PI < ps - al). { destruct (Rlt_le_dec PI (ps - al)) as [L|L]; auto. exfalso. assert (0 <= sin (ps - al)) by (apply sin_ge_0; unfold ps in *; lra). lra. }
  assert (G2 : ps + al < PI). { destruct (Rlt_le_dec (ps + al) PI) as [L|L]; auto. exfalso. assert (sin (ps + al) <= 0) by (apply sin_le_0; unfold ps in *; lra). lra. }
  lra.
Qed.
(** a point of a brick, in the frame of the brick *)
Lemma brick_hull outer inner h t use_cubes p : 0 < inner -> inner < outer -> 0 < h -> 0 < t -> in_hull (fst (wall_brick outer inner h t use_cubes)) p ->
  - h / 2 <= vy p <= h / 2 /\ inner <= (outer + inner) / 2 - vz p <= outer /\ Rabs (vx p) <= t * ((outer + inner) / 2 - vz p).
Proof.
  intros Hi Ho Hh Ht H. assert (P1 : 0 < t * inner) by (apply Rmult_lt_0_compat; auto). assert (P2 : 0 < t * outer) by (apply Rmult_lt_0_compat; lra).
  destruct use_cubes.
  - unfold wall_brick in H. apply box_hull in H; try lra. destruct H as (Hx & Hy & Hz). split; [lra|]. split; [lra|]. apply Rabs_le.
    assert (t * inner <= t * ((outer + inner) / 2 - vz p)) by (apply Rmult_le_compat_l; lra). lra.
  - assert (H' : in_hull (trapV (t * inner) (t * outer) h (outer - inner)) p) by exact H. apply trap_hull in H'; try lra. destruct H' as (Hy & Hz & Hx). split; [lra|]. split; [lra|].
    eapply Rle_trans; [exact Hx|]. apply Req_le. field. lra.
Qed.
Theorem C142_apart eig sd e fresh r q outer inner height layers segments use_cubes density mat safety e' names : eig_diagonal eig -> reach eig sd sane_params e -> (2 <= p_resolution (e_params e))%Z ->
  new_names e fresh -> exist_material (e_lib e) mat = true -> is_unit q -> 0 < inner -> inner < outer -> 0 < height -> (1 <= layers)%nat -> (3 <= segments)%nat -> 0 < safety ->
  create_tower eig sd fresh r q outer inner height layers segments use_cubes density mat safety e = (Done e', names) ->
  let h := height / INR layers in
  (* in the frame of the tower, brick (lay, seg) is in layer lay, between the inner and the outer face, in its sector *)
  (forall lay seg n p, (lay < layers)%nat -> (seg < segments)%nat -> nth_error names (lay * segments + seg) = Some n -> occupies e' n p ->
     let x := q_rotate (q_conj q) (vsub p r) in let angle := brick_angle segments lay seg in
     INR lay * h <= vy x <= INR (S lay) * h /\
     exists z u, inner <= z <= outer /\ Rabs u <= slope segments safety * z /\ vx x = u * cos angle - z * sin angle /\ vz x = - (u * sin angle) - z * cos angle) /\
  (* two bricks share at most points between their layers *)
  (safety < 1 -> forall lay1 seg1 lay2 seg2 n1 n2 p, (lay1 < layers)%nat -> (seg1 < segments)%nat -> (lay2 < layers)%nat -> (seg2 < segments)%nat -> n1 <> n2 ->
     nth_error names (lay1 * segments + seg1) = Some n1 -> nth_error names (lay2 * segments + seg2) = Some n2 -> occupies e' n1 p -> occupies e' n2 p ->
     (lay2 = S lay1 \/ lay1 = S lay2) /\ vy (q_rotate (q_conj q) (vsub p r)) = INR (Nat.max lay1 lay2) * h).
Proof.
  intros HE HR HN HF HM HQ Hi Ho Hh HL HS Hs H h.
  destruct (C142_tower eig sd e fresh r q outer inner height layers segments use_cubes density mat safety HE HR HN HF HM HQ Hi Ho Hh HL HS Hs) as (e1 & ns & E & _ & _ & _ & LN & ND & _ & HB & _).
  rewrite E in H. assert (e1 = e') by congruence. assert (ns = names) by congruence. subst e1 ns. clear H E. fold h in HB.
  assert (Ph : 0 < h). { apply Rdiv_lt_0_compat; auto. apply lt_0_INR. lia. }
  assert (Pt : 0 < slope segments safety) by (apply slope_pos; auto). set (t := slope segments safety) in *.
  assert (IN : forall lay seg n p, (lay < layers)%nat -> (seg < segments)%nat -> nth_error names (lay * segments + seg) = Some n -> occupies e' n p ->
     let x := q_rotate (q_conj q) (vsub p r) in let angle := brick_angle segments lay seg in
     INR lay * h <= vy x <= INR (S lay) * h /\
     exists z u, inner <= z <= outer /\ Rabs u <= t * z /\ vx x = u * cos angle - z * sin angle /\ vz x = - (u * sin angle) - z * cos angle).
  { intros lay seg n p Hlay Hseg Hn HO x angle. destruct (HB lay seg Hlay Hseg) as (n' & Hn' & HSt & _). rewrite Hn in Hn'. apply some_eq in Hn'. subst n'.
    cbv zeta in HSt. fold angle in HSt.
    assert (UQ : is_unit (q_prod q (q_Ry angle))) by (apply q_prod_unit; [exact HQ|apply Ry_unit]).
    destruct (stands_inside _ _ _ _ _ _ UQ HSt HO) as (y & Ep & Hy). apply brick_hull in Hy; auto. destruct Hy as (Y1 & Y2 & Y3).
    assert (EX : x = vadd (q_rotate (q_Ry angle) y) (brick_centre outer inner h angle lay)).
    { unfold x. rewrite Ep. unfold at_pose. rewrite q_rotate_prod.
      replace (vsub (vadd (q_rotate q (q_rotate (q_Ry angle) y)) (vadd (q_rotate q (brick_centre outer inner h angle lay)) r)) r)
        with (q_rotate q (vadd (q_rotate (q_Ry angle) y) (brick_centre outer inner h angle lay))); [apply q_rotate_inv_l; exact HQ|].
      rewrite q_rotate_add. unfold vsub, vadd. cbn [vx vy vz]. apply (f_equal3 mkV); ring. }
    rewrite EX, Ry_rotate. unfold brick_centre, vadd. cbn [vx vy vz]. split; [rewrite S_INR; lra|].
    exists ((outer + inner) / 2 - vz y), (vx y). split; [exact Y2|]. split; [exact Y3|]. split; ring. }
  split; [exact IN|]. intros H1 lay1 seg1 lay2 seg2 n1 n2 p L1 S1 L2 S2 NE N1 N2 O1 O2.
  destruct (IN lay1 seg1 n1 p L1 S1 N1 O1) as (Y1 & z1 & u1 & Z1 & U1 & X1 & W1). destruct (IN lay2 seg2 n2 p L2 S2 N2 O2) as (Y2 & z2 & u2 & Z2 & U2 & X2 & W2).
  set (x := q_rotate (q_conj q) (vsub p r)) in *.
  assert (MON : forall a b, (S a < b)%nat -> INR (S a) * h < INR b * h). { intros a b Hab. apply Rmult_lt_compat_r; auto. apply lt_INR. lia. }
  destruct (Nat.lt_trichotomy lay1 lay2) as [LL|[LL|LL]].
  - destruct (Nat.eq_dec lay2 (S lay1)) as [->|NS]. 2:{ pose proof (MON lay1 lay2 ltac:(lia)). lra. }
    split; [left; reflexivity|]. rewrite Nat.max_r by lia. lra.
  - exfalso. subst lay2. assert (NSG : seg1 <> seg2) by (intros ->; congruence).
    destruct (half_angle segments HS) as [A0 A1]. pose proof PI_RGT_0 as PP. set (al := PI / INR segments) in *.
    assert (EAL : INR segments * al = PI). { unfold al. field. apply not_0_INR. lia. }
    assert (TA : 0 < tan al) by (apply tan_gt_0; lra).
    assert (SH : forall z u, inner <= z -> Rabs u <= t * z -> Rabs u < tan al * z). { intros z u Hz Hu. eapply Rle_lt_trans; [exact Hu|]. apply Rmult_lt_compat_r; [lra|]. unfold t, slope. fold al. nra. }
    assert (CORE : forall sa sb za ua zb ub, (sa < sb)%nat -> (sb < segments)%nat -> inner <= za -> inner <= zb -> Rabs ua <= t * za -> Rabs ub <= t * zb ->
      ua * cos (brick_angle segments lay1 sa) - za * sin (brick_angle segments lay1 sa) = ub * cos (brick_angle segments lay1 sb) - zb * sin (brick_angle segments lay1 sb) ->
      - (ua * sin (brick_angle segments lay1 sa)) - za * cos (brick_angle segments lay1 sa) = - (ub * sin (brick_angle segments lay1 sb)) - zb * cos (brick_angle segments lay1 sb) -> False).
    { intros sa sb za ua zb ub Hab Hb Hza Hzb Hua Hub EX EW. set (A := brick_angle segments lay1 sa) in *. set (B := brick_angle segments lay1 sb) in *.
      assert (ED : B - A = 2 * al * INR (sb - sa)). { unfold A, B, brick_angle. rewrite minus_INR by lia. unfold al. unfold Rdiv. ring. }
      assert (K1 : 1 <= INR (sb - sa)). { replace 1 with (INR 1) by reflexivity. apply le_INR. lia. }
      assert (K2 : INR (sb - sa) <= INR segments - 1). { replace (INR segments - 1) with (INR (segments - 1)) by (rewrite minus_INR by lia; reflexivity). apply le_INR. lia. }
      apply (sector_apart al (B - A) za ua zb ub).
      - lra.
      - rewrite ED. split; nra.
      - lra.
      - apply SH; auto.
      - apply SH; auto.
      - rewrite cos_minus, sin_minus. pose proof (sin2_cos2 B) as SB. unfold Rsqr in SB.
        transitivity (- ((ub * cos B - zb * sin B) * sin B + (- (ub * sin B) - zb * cos B) * cos B)); [transitivity (zb * (sin B * sin B + cos B * cos B)); [rewrite SB; ring|ring]|]. rewrite <- EX, <- EW. ring.
      - rewrite cos_minus, sin_minus. pose proof (sin2_cos2 B) as SB. unfold Rsqr in SB.
        transitivity ((ub * cos B - zb * sin B) * cos B - (- (ub * sin B) - zb * cos B) * sin B); [transitivity (ub * (sin B * sin B + cos B * cos B)); [rewrite SB; ring|ring]|]. rewrite <- EX, <- EW. ring. }
    rewrite X1 in X2. rewrite W1 in W2.
    destruct (Nat.lt_total seg1 seg2) as [SS|[SS|SS]]; [|congruence|].
    + apply (CORE seg1 seg2 z1 u1 z2 u2); auto; lra.
    + apply (CORE seg2 seg1 z2 u2 z1 u1); auto; lra.
  - destruct (Nat.eq_dec lay1 (S lay2)) as [->|NS]. 2:{ pose proof (MON lay2 lay1 ltac:(lia)). lra. }
    split; [right; reflexivity|]. rewrite Nat.max_l by lia. lra.
Qed.
(** the tower can be simulated *)
Theorem C142_simulates eig sd e fresh r q outer inner height layers segments use_cubes density mat safety e' names time : eig_diagonal eig -> reach eig sd sane_params e -> (2 <= p_resolution (e_params e))%Z ->
  new_names e fresh -> exist_material (e_lib e) mat = true -> is_unit q -> 0 < inner -> inner < outer -> 0 < height -> (1 <= layers)%nat -> (3 <= segments)%nat -> 0 < safety ->
  set_up e -> density <> 0 -> big_brick outer inner (height / INR layers) (slope segments safety) use_cubes -> 0 < time -> 0 < p_time_step (e_params e) ->
  create_tower eig sd fresh r q outer inner height layers segments use_cubes density mat safety e = (Done e', names) ->
  exists e2 dts, lsum dts = time /\ exists n, forall fuel, (n <= fuel)%nat -> simulate fuel time e' = SimDone e2 dts.
Proof.
  intros HE HR HN HF HM HQ Hi Ho Hh HL HS Hs HU HD HB HT HTS H.
  destruct (C142_tower eig sd e fresh r q outer inner height layers segments use_cubes density mat safety HE HR HN HF HM HQ Hi Ho Hh HL HS Hs) as (e1 & ns & E & R1 & HA & _ & _ & _ & _ & _ & U).
  rewrite E in H. assert (e1 = e') by congruence. subst e1. destruct HA as (_ & _ & _ & _ & _ & _ & EP & _).
  destruct (C84_simulate eig sd e' time R1 (U HU HD HB) HT) as (e2 & dts & K1 & _ & K2); [rewrite EP; exact HTS|]. exists e2, dts. auto.
Qed.
(** two layers of four wedges in a new engine *)
Example C142_nonvacuous sd : reach diag_eig sd sane_params create_engine /\ (2 <= p_resolution (e_params create_engine))%Z /\ exist_material (e_lib create_engine) default_name = true /\
  eig_diagonal diag_eig /\ new_names create_engine numbered /\ set_up create_engine /\ big_brick 2 1 (2 / INR 2) (slope 4 (1 / 2)) false /\
  exists e' names, create_tower diag_eig sd numbered vzero q_identity 2 1 2 2 4 false 1 default_name (1 / 2) create_engine = (Done e', names) /\ length names = 8%nat /\
    nth_error names 6 = Some [7]%nat /\ at_rest e' [7]%nat false default_name (3 / 2) /\ stands e' [7]%nat (wall_brick 2 1 1 (1 / 2) false) (mkV 0 (3 / 2) (3 / 2)) (q_Ry PI).
Proof.
  assert (R0 : reach diag_eig sd sane_params create_engine). { apply reach_new. split; [reflexivity|]. cbn. split; [lia|lra]. }
  assert (HM : exist_material (e_lib create_engine) default_name = true) by reflexivity.
  assert (HP : (2 <= p_resolution (e_params create_engine))%Z) by (cbn; lia).
  assert (I4 : INR 4 = 4) by (cbn; ring). assert (I2 : INR 2 = 2) by (cbn; ring).
  assert (SL : slope 4 (1 / 2) = 1 / 2) by (unfold slope; rewrite I4, tan_PI4; ring). assert (H1 : 2 / INR 2 = 1) by (rewrite I2; field).
  assert (UQ : is_unit q_identity) by (unfold is_unit, q_identity, qdot; cbn; ring).
  split; [exact R0|]. split; [exact HP|]. split; [exact HM|]. split; [exact diag_eig_diagonal|]. split; [exact numbered_new|].
  split; [split; [|split]; cbn; tauto|]. rewrite H1, SL. split.
  { unfold big_brick, big_trap, tiny. split; [lra|]. split; [right; replace ((2 - 1) * (1 / 2 * 1 - 1 / 2 * 2) / (6 * (1 / 2 * 1 + 1 / 2 * 2))) with (- (1 / 18)) by field; rewrite Rabs_Ropp, Rabs_pos_eq; lra|]. split; [lra|]. split; lra. }
  destruct (C142_tower diag_eig sd create_engine numbered vzero q_identity 2 1 2 2 4 false 1 default_name (1 / 2) diag_eig_diagonal R0 HP numbered_new HM UQ ltac:(lra) ltac:(lra) ltac:(lra) ltac:(lia) ltac:(lia) ltac:(lra)) as (e' & names & E & _ & _ & _ & LN & _ & _ & HS & _).
  exists e', names. split; [exact E|]. split; [exact LN|]. rewrite H1, SL in HS.
  destruct (HS 1%nat 2%nat ltac:(lia) ltac:(lia)) as (n & Hn & HSt & m & Hm & HA). 
  assert (EN : names = map (fun m => numbered (S m)) (seq 0 (2 * 4))) by (apply (f_equal snd) in E; symmetry; exact E). 
  assert (n = [7]%nat). { rewrite EN in Hn. cbv [numbered seq map Nat.mul Nat.add nth_error] in Hn. apply some_eq in Hn. symmetry. exact Hn. } subst n.
  split; [exact Hn|]. split.
  - apply pos_clamp_val in Hm; [|unfold tiny, brick_volume; lra]. replace (3 / 2) with (m * 1) by (rewrite Hm; unfold brick_volume; field). exact HA.
  - cbv zeta in HSt. assert (EA : brick_angle 4 1 2 = PI). { unfold brick_angle. cbn [Nat.even]. rewrite I4, I2. field. } rewrite EA, q_prod_id_l in HSt.
    assert (EC : at_pose vzero q_identity (brick_centre 2 1 1 PI 1) = mkV 0 (3 / 2) (3 / 2)).
    { unfold at_pose, brick_centre. rewrite q_rotate_id, sin_PI, cos_PI. unfold vadd, vzero. cbn [vx vy vz INR]. apply (f_equal3 mkV); field. }
    rewrite EC in HSt. exact HSt.
Qed.
Print Assumptions C142_tower.
Print Assumptions C142_apart.
Print Assumptions C142_simulates.
