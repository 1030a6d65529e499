(** C156: a sandbox. *)
From Verif Require Import Base QuatModel QuatProofs VecModel VecProofs BvhModel BvhSpec GridModel VolModel RigidTypes RigidSpec CollModel BaryModel MassModel MassSpec MassProofs MassProofs2 Prop_Mass
  StepModel StepProofs StepProofs2 ReadySpec ReadyProofs ConSpec ApiModel ApiSpec ApiProofs RotModel RotProofs QuatMatProofs Prop_Rotation Prop_Api Prop_Api2
  SurfModel SurfSpec SceneModel SceneSpec SceneMesh SceneProofs SceneShape SceneBox ScenePlace Prop_Scene Prop_SceneLattice Prop_SceneTower Prop_SceneColosseum SandboxModel.
From Coq Require Import Permutation.
Open Scope R_scope.

(** ** what is built *)
(** the body n is a fixed box of the given size, parallel to the axes of the world, with its centre at r *)
Definition fixed_box (e : engine) (n : name) (mat : name) (density w h d : R) (r : vec3) : Prop :=
  stands e n (create_box w h d) r q_identity /\ exists m, pos_up_to_clamp (w * h * d) m /\ at_rest e n true mat (m * density).
(** the material of the sandbox: a block of the outer size without the space of width w and depth d above its floor of thickness t *)
Definition sandbox_solid (w h d t : R) (p : vec3) : Prop :=
  Rabs (vx p) <= w / 2 + t /\ Rabs (vz p) <= d / 2 + t /\ 0 <= vy p <= h + t /\ ~ (Rabs (vx p) < w / 2 /\ Rabs (vz p) < d / 2 /\ t < vy p).
(** the inner faces of the box *)
Definition sandbox_faces (w d t : R) (p : vec3) : Prop := vy p = t \/ Rabs (vz p) = d / 2.

(** ** one wall *)
Lemma wall_ok eig sd e sn bn w h d r density mat : eig_diagonal eig -> reach eig sd sane_params e -> (2 <= p_resolution (e_params e))%Z ->
  ~ In sn (map sh_name (e_shapes e)) -> ~ In bn (map b_name (e_bodies e)) -> exist_material (e_lib e) mat = true -> 0 < w -> 0 < h -> 0 < d ->
  exists e', andthen (make_shape eig sd sn (create_box w h d) e) (fun e => andthen (place bn sn r q_identity e) (finish bn fixed_name mat density)) = Done e' /\
    reach eig sd sane_params e' /\ adds e e' [bn] /\ e_hinges e' = e_hinges e /\ map sh_name (e_shapes e') = map sh_name (e_shapes e) ++ [sn] /\
    fixed_box e' bn mat density w h d r /\ (set_up e -> density <> 0 -> big_box w h d -> set_up e').
Proof.
  intros HE HR HN NS NB HM Hw Hh Hd.
  destruct (make_one_shape eig sd e sn _ _ HE HR HN NS (box_good w h d Hw Hh Hd)) as (s & ES & R1 & EN & FS & IS).
  set (e1 := set_shapes e (e_shapes e ++ [s])) in *.
  assert (HB : find_body e1 bn = None). { unfold find_body. destruct (find _ (e_bodies e1)) as [b|] eqn:E; auto. exfalso. apply (find_some b_name) in E as [H1 H2]. apply NB. rewrite <- H2. apply in_map. exact H1. }
  destruct (place_ok eig sd e1 bn sn r q_identity s R1 HB FS) as (t & EP).
  set (b := stone s t (length (e_bodies e1)) bn r q_identity) in *.
  assert (M1 : has_mid (set_bodies e1 (e_bodies e1 ++ [b])) (e_bodies e1) b [] bn). { split; [reflexivity|]. split; [exact NB|]. split; [auto|reflexivity]. }
  assert (M1' := finish_ok _ _ _ _ _ true mat density s M1 eq_refl HM). cbn [type_name] in M1'. rewrite set_bodies_twice in M1'.
  set (bs := [finished s true mat density b]) in *.
  assert (R3 : reach eig sd sane_params (set_bodies e1 (e_bodies e1 ++ bs))). { eapply finish_reach; [|exact M1']. eapply place_reach; [exact R1|exact EP]. }
  set (mesh := fun _ : name => (boxV w h d, boxT w h d)). set (l := [(bn, sn, r, q_identity)] : list item).
  destruct (builder_result eig sd e [s] true mat density mesh l bs R3) as (HA & HH & HS & HU).
  { intros x [<-|[]]. exact NB. }
  { constructor; [|constructor]. exists s, t, (length (e_bodies e1)). split; [exact FS|reflexivity]. }
  { intros x s' [<-|[]] Hs'. cbn [it_shape] in Hs'. fold e1 in Hs'. assert (s' = s) by congruence. subst s'. exact IS. }
  fold e1 in HA, HH, HS, HU. change (e_bodies e1) with (e_bodies e) in *. exists (set_bodies e1 (e_bodies e ++ bs)).
  destruct (HS _ (or_introl eq_refl)) as [S1 (m & S2 & S3)]. cbn [it_name it_shape it_r it_q mesh fst snd] in *.
  split. { change (create_box w h d) with (boxV w h d, boxT w h d). rewrite ES. cbn [andthen]. fold e1. rewrite EP. cbn [andthen]. exact M1'. }
  split; [exact R3|]. split; [exact HA|]. split; [exact HH|].
  split. { cbn [set_bodies set_shapes e_shapes e1]. rewrite map_app. cbn [map]. rewrite EN. reflexivity. }
  split. { split; [apply S1; unfold is_unit, q_identity, qdot; cbn; ring|]. exists m. rewrite (box_volume w h d) in S2. auto. }
  intros U D B. apply HU; auto. intros x _. exact (box_counted w h d Hw Hh Hd B).
Qed.
Lemma fixed_box_keep e e' n mat density w h d r : find_body e' n = find_body e n -> fixed_box e n mat density w h d r -> fixed_box e' n mat density w h d r.
Proof. intros E (S & m & M & T). split; [exact (stands_keep _ _ _ _ _ _ E S)|]. exists m. split; [exact M|exact (rest_keep _ _ _ _ _ _ E T)]. Qed.
(** ** walls one after another; a wall is given by its number, size and position *)
Definition wall_of (p : nat * (R * R * R * vec3)) : nat * ((list vec3 * list tri) * vec3) := let '(m, (w, h, d, r)) := p in (m, (create_box w h d, r)).
Lemma walls_ok eig sd fresh density mat : eig_diagonal eig -> (forall i j, fresh i = fresh j -> i = j) -> forall l e, reach eig sd sane_params e -> (2 <= p_resolution (e_params e))%Z ->
  exist_material (e_lib e) mat = true -> NoDup (map fst l) ->
  (forall p, In p l -> ~ In (fresh (2 * fst p)%nat) (map sh_name (e_shapes e)) /\ ~ In (fresh (2 * fst p + 1)%nat) (map b_name (e_bodies e))) ->
  (forall m w h d r, In (m, (w, h, d, r)) l -> 0 < w /\ 0 < h /\ 0 < d) ->
  exists e', each (sandbox_wall eig sd fresh density mat) (map wall_of l) e = Done e' /\ reach eig sd sane_params e' /\ adds e e' (map (fun p => fresh (2 * fst p + 1)%nat) l) /\ e_hinges e' = e_hinges e /\
    (forall m w h d r, In (m, (w, h, d, r)) l -> fixed_box e' (fresh (2 * m + 1)%nat) mat density w h d r) /\
    (set_up e -> density <> 0 -> (forall m w h d r, In (m, (w, h, d, r)) l -> big_box w h d) -> set_up e').
Proof.
  intros HE HI. induction l as [|[m [[[w h] d] r]] l IH]; intros e HR HN HM ND NF HP.
  - exists e. cbn [map each]. split; [reflexivity|]. split; [exact HR|]. split; [apply adds_refl|]. split; [reflexivity|]. split; [intros ? ? ? ? ? []|auto].
  - destruct (NF _ (or_introl eq_refl)) as [NS NB]. cbn [fst] in NS, NB. destruct (HP m w h d r (or_introl eq_refl)) as (Hw & Hh & Hd).
    destruct (wall_ok eig sd e _ _ w h d r density mat HE HR HN NS NB HM Hw Hh Hd) as (e1 & E1 & R1 & A1 & H1 & S1 & B1 & U1).
    cbn [map fst] in ND. inversion ND as [|m' l' ND1 ND2]. subst m' l'.
    pose proof A1 as (A1a & A1b & A1c & _ & _ & A1d & A1e & _).
    destruct (IH e1 R1) as (e2 & E2 & R2 & A2 & H2 & B2 & U2).
    { rewrite A1e. exact HN. }
    { rewrite A1d. exact HM. }
    { exact ND2. }
    { intros p Hp. destruct (NF p (or_intror Hp)) as [A B]. assert (D : fst p <> m) by (intros D; apply ND1; rewrite <- D; apply in_map; exact Hp).
      rewrite S1, A1a, !in_app_iff. split; intros [C|[C|[]]]; auto; apply HI in C; lia. }
    { intros m' w' h' d' r' Hp. apply (HP m' w' h' d' r'). right. exact Hp. }
    exists e2. split. { cbn [map wall_of each]. unfold sandbox_wall at 1. rewrite E1. cbn [andthen]. exact E2. }
    split; [exact R2|]. split; [exact (adds_trans e e1 e2 [_] _ A1 A2)|]. split; [congruence|]. split.
    + intros m' w' h' d' r' [E|Hp]; [|exact (B2 _ _ _ _ _ Hp)]. assert (m' = m /\ w' = w /\ h' = h /\ d' = d /\ r' = r) as (-> & -> & -> & -> & ->) by (repeat split; congruence).
      apply (fixed_box_keep e1); [|exact B1]. destruct A2 as (_ & A2 & _). apply A2. rewrite A1a. apply in_or_app. right. left. reflexivity.
    + intros U D B. apply U2; auto; [apply U1; auto; apply (B m w h d r); left; reflexivity|]. intros m' w' h' d' r' Hp. apply (B m' w' h' d' r'). right. exact Hp.
Qed.
(** a fixed box occupies exactly the points within half its size from its centre *)
Lemma box_hull_conv w h d p : - w / 2 <= vx p <= w / 2 -> - h / 2 <= vy p <= h / 2 -> - d / 2 <= vz p <= d / 2 -> in_hull (fst (create_box w h d)) p.
Proof.
  intros Hx Hy Hz. change (fst (create_box w h d)) with (boxV w h d). rewrite boxV_eq. intros n c H.
  pose proof (H (mkV (- w / 2) (- h / 2) (- d / 2)) ltac:(cbn; auto 10)) as V0. pose proof (H (mkV (w / 2) (- h / 2) (- d / 2)) ltac:(cbn; auto 10)) as V1.
  pose proof (H (mkV (- w / 2) (h / 2) (- d / 2)) ltac:(cbn; auto 10)) as V2. pose proof (H (mkV (w / 2) (h / 2) (- d / 2)) ltac:(cbn; auto 10)) as V3.
  pose proof (H (mkV (- w / 2) (- h / 2) (d / 2)) ltac:(cbn; auto 10)) as V4. pose proof (H (mkV (w / 2) (- h / 2) (d / 2)) ltac:(cbn; auto 10)) as V5.
  pose proof (H (mkV (- w / 2) (h / 2) (d / 2)) ltac:(cbn; auto 10)) as V6. pose proof (H (mkV (w / 2) (h / 2) (d / 2)) ltac:(cbn; auto 10)) as V7. clear H.
  unfold vdot in *. cbn [vx vy vz] in *. destruct p as [x y z]. cbn [vx vy vz] in *.
  assert (G : forall a t s, - s / 2 <= t <= s / 2 -> a * t <= a * (- s / 2) \/ a * t <= a * (s / 2)).
  { intros a t s Ht. destruct (Rle_dec 0 a) as [A|A]; [right; apply Rmult_le_compat_l; lra|left]. apply Ropp_le_cancel. rewrite <- !Ropp_mult_distr_l_reverse. apply Rmult_le_compat_l; lra. }
  destruct (G (vx n) x w Hx), (G (vy n) y h Hy), (G (vz n) z d Hz); lra.
Qed.
Lemma fixed_box_points e n mat density w h d r p : 0 < w -> 0 < h -> 0 < d -> fixed_box e n mat density w h d r ->
  (occupies e n p <-> Rabs (vx p - vx r) <= w / 2 /\ Rabs (vy p - vy r) <= h / 2 /\ Rabs (vz p - vz r) <= d / 2).
Proof.
  intros Hw Hh Hd (S & _). assert (UQ : is_unit q_identity) by (unfold is_unit, q_identity, qdot; cbn; ring). split.
  - intros HO. destruct (stands_inside _ _ _ _ _ _ UQ S HO) as (x & -> & Hx). apply box_hull in Hx; auto. unfold at_pose. rewrite q_rotate_id. destruct x as [x0 x1 x2], r as [r0 r1 r2]. unfold vadd. cbn [vx vy vz] in *.
    split; [|split]; apply Rabs_le; lra.
  - intros (Hx & Hy & Hz). apply (stands_occupies _ _ _ _ _ _ S). intros n' c Hc.
    assert (E : p = at_pose r q_identity (vsub p r)). { unfold at_pose. rewrite q_rotate_id. destruct p, r. unfold vadd, vsub. cbn. f_equal; ring. }
    rewrite E, at_pose_dot by exact UQ. assert (G : vdot (q_rotate (q_conj q_identity) n') (vsub p r) <= c - vdot n' r); [|lra].
    assert (B : forall x s, Rabs x <= s / 2 -> - s / 2 <= x <= s / 2). { intros x s Q. unfold Rabs in Q. destruct (Rcase_abs x); lra. }
    apply (box_hull_conv w h d (vsub p r)); [apply B; exact Hx|apply B; exact Hy|apply B; exact Hz|].
    intros v Hv. pose proof (Hc (at_pose r q_identity v) (in_map _ _ _ Hv)) as K. rewrite at_pose_dot in K by exact UQ. lra.
Qed.

Definition wall_list (w h d : R) : list (nat * (R * R * R * vec3)) :=
  let t := h / 10 in
  [(0%nat, (t, h, d, mkV (- (w + t) / 2) (h / 2 + t) 0)); (1%nat, (t, h, d, mkV ((w + t) / 2) (h / 2 + t) 0));
   (2%nat, (w + 2 * t, h, t, mkV 0 (h / 2 + t) ((d + t) / 2))); (3%nat, (w + 2 * t, h, t, mkV 0 (h / 2 + t) (- (d + t) / 2)));
   (4%nat, (w + 2 * t, t, d + 2 * t, mkV 0 (t / 2) 0))].
Lemma walls_eq w h d : sandbox_walls w h d = map wall_of (wall_list w h d).
Proof.
  unfold sandbox_walls, wall_list, thickness. cbn [map wall_of].
  repeat (apply f_equal2; [apply f_equal2; [reflexivity|apply f_equal2; [apply (f_equal3 create_box); field|apply (f_equal3 mkV); field]]|]). reflexivity.
Qed.
(** large enough for the masses and the moments of inertia to be kept *)
Definition big_sandbox (w h d : R) : Prop := let t := h / 10 in big_box t h d /\ big_box (w + 2 * t) h t /\ big_box (w + 2 * t) t (d + 2 * t).

Lemma nodup_right {A} (l l' : list A) : NoDup (l ++ l') -> NoDup l'.
Proof. induction l as [|x l IH]; cbn; auto. intros H. inversion H. auto. Qed.

Theorem C156_sandbox eig sd e fresh rnd shapes w h d I J K density mat : eig_diagonal eig -> reach eig sd sane_params e -> (2 <= p_resolution (e_params e))%Z ->
  new_names e fresh -> exist_material (e_lib e) mat = true -> 0 < w -> 0 < h -> 0 < d -> (0 < I)%nat -> (0 < J)%nat -> (0 < K)%nat ->
  shapes <> [] -> (forall sn, In sn shapes -> In sn (map sh_name (e_shapes e))) ->
  let t := h / 10 in
  exists e' grains left right front back floor,
    create_sandbox eig sd fresh rnd shapes w h d I J K density mat e = (Done e', grains ++ [left; right; front; back; floor]) /\ reach eig sd sane_params e' /\
    adds e e' (grains ++ [left; right; front; back; floor]) /\ e_hinges e' = e_hinges e /\ NoDup (grains ++ [left; right; front; back; floor]) /\
    fixed_box e' left mat density t h d (mkV (- (w + t) / 2) (h / 2 + t) 0) /\ fixed_box e' right mat density t h d (mkV ((w + t) / 2) (h / 2 + t) 0) /\
    fixed_box e' front mat density (w + 2 * t) h t (mkV 0 (h / 2 + t) ((d + t) / 2)) /\ fixed_box e' back mat density (w + 2 * t) h t (mkV 0 (h / 2 + t) (- (d + t) / 2)) /\
    fixed_box e' floor mat density (w + 2 * t) t (d + 2 * t) (mkV 0 (t / 2) 0) /\
    length grains = (I * J * K)%nat /\
    (forall i j k, (i < I)%nat -> (j < J)%nat -> (k < K)%nat -> exists n b sn s, nth_error grains ((i * J + j) * K + k)%nat = Some n /\ find_body e' n = Some b /\
       nth_error shapes ((i + j + k) mod length shapes) = Some sn /\ find_shape e sn = Some s /\ b_shape b = Some s /\
       b_r b = mkV (- w / 2 + (INR i + 1 / 2) * (w / INR I)) (3 / 2 * h + t + (INR j + 1 / 2) * (h / INR J)) (- d / 2 + (INR k + 1 / 2) * (d / INR K)) /\
       at_rest e' n false mat (sh_mass s * density)) /\
    (set_up e -> density <> 0 -> (forall sn s, In sn shapes -> find_shape e sn = Some s -> corner_nonzero s /\ sh_mass s <> 0 /\ vx (sh_inertia s) <> 0 /\ vy (sh_inertia s) <> 0 /\ vz (sh_inertia s) <> 0) ->
       big_sandbox w h d -> set_up e').
Proof.
  intros HE HR HN HNN HM Hw Hh Hd HI HJ HK HS HSH t. pose proof HNN as (HI1 & HF).
  destruct (C141_lattice eig sd e fresh rnd (mkV (- w / 2) (15 / 10 * h + thickness h) (- d / 2)) q_identity shapes w h d I J K density mat true None HR HNN HM HI HJ HK HS HSH) as (e1 & grains & E1 & R1 & A1 & H1 & S1 & LG & NG & HG & U1).
  set (fresh' := fun i => fresh (I * J * K + i)%nat).
  assert (EG : grains = map fresh (seq 0 (I * J * K))).
  { unfold create_lattice in E1. destruct (Nat.eqb I 0 || Nat.eqb J 0 || Nat.eqb K 0 || Nat.eqb (length shapes) 0); [discriminate|]. apply (f_equal snd) in E1. symmetry. exact E1. }
  assert (HI2 : forall i j, fresh' i = fresh' j -> i = j) by (intros i j H; apply HI1 in H; lia).
  pose proof A1 as (A1a & A1b & A1c & _ & _ & A1d & A1e & _). assert (T : 0 < t) by (unfold t; lra).
  destruct (walls_ok eig sd fresh' density mat HE HI2 (wall_list w h d) e1 R1) as (e2 & E2 & R2 & A2 & H2 & B2 & U2).
  { rewrite A1e. exact HN. }
  { rewrite A1d. exact HM. }
  { cbn. repeat constructor; cbn; intuition lia. }
  { intros p _. rewrite S1, A1a, in_app_iff. split; [apply HF|]. intros [C|C]; [exact (proj1 (HF _) C)|]. rewrite EG in C. apply in_map_iff in C as (k & Ek & Hk). apply in_seq in Hk. unfold fresh' in Ek. apply HI1 in Ek. lia. }
  { intros m w' h' d' r Hp. unfold wall_list in Hp. cbv zeta in Hp. fold t in Hp.
    assert (Q : forall a b c a' b' c' r' m0, (m0, (a', b', c', r')) = (m, (w', h', d', r)) -> a' = a -> b' = b -> c' = c -> 0 < a -> 0 < b -> 0 < c -> 0 < w' /\ 0 < h' /\ 0 < d').
    { intros a b c a' b' c' r' m0 Eq -> -> -> Pa Pb Pc. assert (w' = a /\ h' = b /\ d' = c) as (-> & -> & ->) by (repeat split; congruence). auto. }
    repeat (destruct Hp as [Hp|Hp]; [apply (Q _ _ _ _ _ _ _ _ Hp eq_refl eq_refl eq_refl); lra|]). destruct Hp. }
  exists e2, grains, (fresh' 1%nat), (fresh' 3%nat), (fresh' 5%nat), (fresh' 7%nat), (fresh' 9%nat).
  assert (EW : map (fun p : nat * (R * R * R * vec3) => fresh' (2 * fst p + 1)%nat) (wall_list w h d) = [fresh' 1%nat; fresh' 3%nat; fresh' 5%nat; fresh' 7%nat; fresh' 9%nat]) by reflexivity.
  rewrite EW in A2. pose proof (adds_trans _ _ _ _ _ A1 A2) as AA.
  split. { unfold create_sandbox. rewrite E1. fold fresh'. rewrite walls_eq. cbn [andthen]. rewrite E2. reflexivity. }
  split; [exact R2|]. split; [exact AA|]. split; [congruence|].
  split. { pose proof (reach_names _ _ _ _ R2) as ND. destruct AA as (AA & _). rewrite AA in ND. exact (nodup_right _ _ ND). }
  split; [apply (B2 0%nat); left; reflexivity|]. split; [apply (B2 1%nat); right; left; reflexivity|]. split; [apply (B2 2%nat); right; right; left; reflexivity|].
  split; [apply (B2 3%nat); right; right; right; left; reflexivity|]. split; [apply (B2 4%nat); right; right; right; right; left; reflexivity|]. split; [exact LG|]. split.
  - intros i j k Hi Hj Hk. destruct (HG i j k Hi Hj Hk) as (n & b & sn & s & G1 & G2 & G3 & G4 & G5 & G6 & _ & G7). exists n, b, sn, s.
    assert (FB : find_body e2 n = find_body e1 n). { destruct A2 as (_ & A2 & _). apply A2. rewrite A1a. apply in_or_app. right. eapply nth_error_In. exact G1. }
    split; [exact G1|]. split; [congruence|]. split; [exact G3|]. split; [exact G4|]. split; [exact G5|]. split; [|exact (rest_keep _ _ _ _ _ _ FB G7)].
    rewrite G6. unfold at_pose. rewrite q_rotate_id. unfold cell_centre, vadd, thickness, t. cbn [vx vy vz]. apply (f_equal3 mkV); field; apply not_0_INR; lia.
  - intros U D HC (B0 & B1 & B3). fold t in B0, B1, B3. apply U2; auto. intros m w' h' d' r Hp. unfold wall_list in Hp. cbv zeta in Hp. fold t in Hp.
    assert (Q : forall a b c r' m0, (m0, (a, b, c, r')) = (m, (w', h', d', r)) -> big_box a b c -> big_box w' h' d').
    { intros a b c r' m0 Eq BB. assert (w' = a /\ h' = b /\ d' = c) as (-> & -> & ->) by (repeat split; congruence). exact BB. }
    repeat (destruct Hp as [Hp|Hp]; [apply (Q _ _ _ _ _ Hp); assumption|]). destruct Hp.
Qed.

(** ** a closed box *)
Lemma abs_le x c : Rabs x <= c <-> - c <= x <= c.
Proof. unfold Rabs. destruct (Rcase_abs x); lra. Qed.
Lemma abs_lt x c : Rabs x < c <-> - c < x < c.
Proof. unfold Rabs. destruct (Rcase_abs x); lra. Qed.
(** the five parts fill the block without its inner space, and two of them share only points of the inner faces, extended to the outside *)
Theorem C156_closed eig sd e fresh rnd shapes w h d I J K density mat e' names : eig_diagonal eig -> reach eig sd sane_params e -> (2 <= p_resolution (e_params e))%Z ->
  new_names e fresh -> exist_material (e_lib e) mat = true -> 0 < w -> 0 < h -> 0 < d -> (0 < I)%nat -> (0 < J)%nat -> (0 < K)%nat ->
  shapes <> [] -> (forall sn, In sn shapes -> In sn (map sh_name (e_shapes e))) ->
  create_sandbox eig sd fresh rnd shapes w h d I J K density mat e = (Done e', names) ->
  exists parts, length parts = 5%nat /\ names = firstn (I * J * K) names ++ parts /\
    (forall p, (exists n, In n parts /\ occupies e' n p) <-> sandbox_solid w h d (h / 10) p) /\
    (forall a b n m p, a <> b -> nth_error parts a = Some n -> nth_error parts b = Some m -> occupies e' n p -> occupies e' m p -> sandbox_faces w d (h / 10) p).
Proof.
  intros HE HR HN HNN HM Hw Hh Hd HI HJ HK HS HSH H.
  destruct (C156_sandbox eig sd e fresh rnd shapes w h d I J K density mat HE HR HN HNN HM Hw Hh Hd HI HJ HK HS HSH) as (e1 & gr & l & r & f & b & fl & E & _ & _ & _ & _ & P1 & P2 & P3 & P4 & P5 & LG & _).
  rewrite E in H. assert (e1 = e') by congruence. assert (EN : gr ++ [l; r; f; b; fl] = names) by congruence. subst e1. set (t := h / 10) in *. assert (T : 0 < t) by (unfold t; lra).
  exists [l; r; f; b; fl]. split; [reflexivity|]. split. { rewrite <- EN, <- LG, firstn_app, firstn_all, Nat.sub_diag. cbn [firstn]. rewrite app_nil_r. reflexivity. }
  assert (Q1 := fun p => fixed_box_points _ _ _ _ _ _ _ _ p T Hh Hd P1). assert (Q2 := fun p => fixed_box_points _ _ _ _ _ _ _ _ p T Hh Hd P2).
  assert (W2 : 0 < w + 2 * t) by lra. assert (D2 : 0 < d + 2 * t) by lra.
  assert (Q3 := fun p => fixed_box_points _ _ _ _ _ _ _ _ p W2 Hh T P3). assert (Q4 := fun p => fixed_box_points _ _ _ _ _ _ _ _ p W2 Hh T P4).
  assert (Q5 := fun p => fixed_box_points _ _ _ _ _ _ _ _ p W2 T D2 P5). clear P1 P2 P3 P4 P5. cbn [vx vy vz] in Q1, Q2, Q3, Q4, Q5.
  assert (O1 : forall p, occupies e' l p <-> - w / 2 - t <= vx p <= - w / 2 /\ t <= vy p <= h + t /\ - d / 2 <= vz p <= d / 2) by (intros p; rewrite Q1, !abs_le; split; lra).
  assert (O2 : forall p, occupies e' r p <-> w / 2 <= vx p <= w / 2 + t /\ t <= vy p <= h + t /\ - d / 2 <= vz p <= d / 2) by (intros p; rewrite Q2, !abs_le; split; lra).
  assert (O3 : forall p, occupies e' f p <-> - w / 2 - t <= vx p <= w / 2 + t /\ t <= vy p <= h + t /\ d / 2 <= vz p <= d / 2 + t) by (intros p; rewrite Q3, !abs_le; split; lra).
  assert (O4 : forall p, occupies e' b p <-> - w / 2 - t <= vx p <= w / 2 + t /\ t <= vy p <= h + t /\ - d / 2 - t <= vz p <= - d / 2) by (intros p; rewrite Q4, !abs_le; split; lra).
  assert (O5 : forall p, occupies e' fl p <-> - w / 2 - t <= vx p <= w / 2 + t /\ 0 <= vy p <= t /\ - d / 2 - t <= vz p <= d / 2 + t) by (intros p; rewrite Q5, !abs_le; split; lra).
  clear Q1 Q2 Q3 Q4 Q5. split.
  - intros p. unfold sandbox_solid. rewrite !abs_le, !abs_lt. split.
    + intros (n & [<-|[<-|[<-|[<-|[<-|[]]]]]] & HO); [apply O1 in HO|apply O2 in HO|apply O3 in HO|apply O4 in HO|apply O5 in HO]; (split; [lra|]; split; [lra|]; split; [lra|]; intros (C1 & C2 & C3); lra).
    + intros (X & Z & Y & N). destruct (Rle_dec (vy p) t) as [LY|LY]; [exists fl; split; [cbn; tauto|]; apply O5; lra|].
      destruct (Rle_dec (d / 2) (vz p)) as [LZ|LZ]; [exists f; split; [cbn; tauto|]; apply O3; lra|]. destruct (Rle_dec (vz p) (- d / 2)) as [LZ'|LZ']; [exists b; split; [cbn; tauto|]; apply O4; lra|].
      destruct (Rle_dec (w / 2) (vx p)) as [LX|LX]; [exists r; split; [cbn; tauto|]; apply O2; lra|]. destruct (Rle_dec (vx p) (- w / 2)) as [LX'|LX']; [exists l; split; [cbn; tauto|]; apply O1; lra|].
      exfalso. apply N. lra.
  - intros i j n m p D Hn Hm Hp Hq. unfold sandbox_faces.
    assert (AE : vz p = d / 2 \/ vz p = - d / 2 -> Rabs (vz p) = d / 2). { intros [C|C]; rewrite C; [rewrite Rabs_pos_eq; lra|rewrite Rabs_left; lra]. }
    assert (NTH : forall k x, nth_error [l; r; f; b; fl] k = Some x -> (k = 0 /\ x = l \/ k = 1 /\ x = r \/ k = 2 /\ x = f \/ k = 3 /\ x = b \/ k = 4 /\ x = fl)%nat).
    { intros k x Hk. destruct k as [|[|[|[|[|k]]]]]; cbn in Hk; [| | | | |destruct k; discriminate]; apply some_eq in Hk; subst x; tauto. }
    apply NTH in Hn, Hm. 
    destruct Hn as [[-> ->]|[[-> ->]|[[-> ->]|[[-> ->]|[-> ->]]]]], Hm as [[-> ->]|[[-> ->]|[[-> ->]|[[-> ->]|[-> ->]]]]]; try congruence;
      repeat match goal with K : occupies _ l _ |- _ => apply O1 in K | K : occupies _ r _ |- _ => apply O2 in K | K : occupies _ f _ |- _ => apply O3 in K | K : occupies _ b _ |- _ => apply O4 in K | K : occupies _ fl _ |- _ => apply O5 in K end;
      first [exfalso; lra|left; lra|right; apply AE; left; lra|right; apply AE; right; lra].
Qed.

(** ** it can be simulated *)
Theorem C156_simulates eig sd e fresh rnd shapes w h d I J K density mat e' names time : eig_diagonal eig -> reach eig sd sane_params e -> (2 <= p_resolution (e_params e))%Z ->
  new_names e fresh -> exist_material (e_lib e) mat = true -> 0 < w -> 0 < h -> 0 < d -> (0 < I)%nat -> (0 < J)%nat -> (0 < K)%nat ->
  shapes <> [] -> (forall sn, In sn shapes -> In sn (map sh_name (e_shapes e))) ->
  set_up e -> density <> 0 -> (forall sn s, In sn shapes -> find_shape e sn = Some s -> corner_nonzero s /\ sh_mass s <> 0 /\ vx (sh_inertia s) <> 0 /\ vy (sh_inertia s) <> 0 /\ vz (sh_inertia s) <> 0) ->
  big_sandbox w h d -> 0 < time -> 0 < p_time_step (e_params e) ->
  create_sandbox eig sd fresh rnd shapes w h d I J K density mat e = (Done e', names) ->
  exists e2 dts, lsum dts = time /\ exists n, forall fuel, (n <= fuel)%nat -> simulate fuel time e' = SimDone e2 dts.
Proof.
  intros HE HR HN HNN HM Hw Hh Hd HI HJ HK HS HSH HU HD HC HB HT HTS H.
  destruct (C156_sandbox eig sd e fresh rnd shapes w h d I J K density mat HE HR HN HNN HM Hw Hh Hd HI HJ HK HS HSH) as (e1 & gr & l & r & f & b & fl & E & R1 & HA & _ & _ & _ & _ & _ & _ & _ & _ & _ & U).
  rewrite E in H. assert (e1 = e') by congruence. subst e1. destruct HA as (_ & _ & _ & _ & _ & _ & EP & _).
  destruct (C84_simulate eig sd e' time R1 (U HU HD HC HB) HT) as (e2 & dts & K1 & _ & K2); [rewrite EP; exact HTS|]. exists e2, dts. auto.
Qed.
(** without grains or without shapes it raises *)
Theorem C156_none eig sd fresh rnd shapes w h d I J K density mat e e' : shapes = [] \/ I = 0%nat \/ J = 0%nat \/ K = 0%nat ->
  fst (create_sandbox eig sd fresh rnd shapes w h d I J K density mat e) <> Done e'.
Proof.
  intros H. unfold create_sandbox, create_lattice. assert (B : Nat.eqb I 0 || Nat.eqb J 0 || Nat.eqb K 0 || Nat.eqb (length shapes) 0 = true).
  { destruct H as [->|[->|[->| ->]]]; cbn; rewrite ?orb_true_r; reflexivity. }
  rewrite B. cbn. discriminate.
Qed.

(** a sandbox of size 10 with eight grains, in an engine with one shape, a box of size 2 *)
Example C156_nonvacuous sd rnd : exists e s, reach diag_eig sd sane_params e /\ new_names e (fun i => [S i]) /\ find_shape e [0]%nat = Some s /\ set_up e /\ 0 < p_time_step (e_params e) /\
  (corner_nonzero s /\ sh_mass s <> 0 /\ vx (sh_inertia s) <> 0 /\ vy (sh_inertia s) <> 0 /\ vz (sh_inertia s) <> 0) /\ big_sandbox 10 10 10 /\
  exists e' grains, create_sandbox diag_eig sd (fun i => [S i]) rnd [[0]%nat] 10 10 10 2 2 2 3 default_name e = (Done e', grains ++ [[10]; [12]; [14]; [16]; [18]]%nat) /\ length grains = 8%nat /\
    (exists n b, nth_error grains 7 = Some n /\ find_body e' n = Some b /\ b_r b = mkV (5 / 2) (47 / 2) (5 / 2) /\ at_rest e' n false default_name 24) /\
    stands e' [18]%nat (create_box 12 1 12) (mkV 0 (1 / 2) 0) q_identity /\ at_rest e' [18]%nat true default_name 432 /\
    occupies e' [14]%nat (mkV 5 6 5) /\ ~ (exists n, In n [[10]; [12]; [14]; [16]; [18]]%nat /\ occupies e' n (mkV 0 6 0)).
Proof.
  assert (R0 : reach diag_eig sd sane_params create_engine). { apply reach_new. split; [reflexivity|]. cbn. split; [lia|lra]. }
  destruct (make_one_shape diag_eig sd create_engine [0]%nat (boxV 2 2 2) (boxT 2 2 2) diag_eig_diagonal R0 ltac:(cbn; lia) ltac:(cbn; tauto) (box_good 2 2 2 ltac:(lra) ltac:(lra) ltac:(lra))) as (s & _ & R1 & EN & FS & IS).
  set (e := set_shapes create_engine (e_shapes create_engine ++ [s])) in *. exists e, s.
  assert (NN : new_names e (fun i => [S i])). { split; [intros i j H; injection H; auto|]. intros i. cbn. split; [tauto|]. intros [H|[]]. rewrite EN in H. discriminate. }
  assert (SU : set_up e) by (split; [|split]; cbn; tauto).
  assert (B2 : big_box 2 2 2) by (unfold big_box, tiny; repeat split; lra).
  destruct IS as (_ & (PM & _) & _ & IC). rewrite box_volume in PM. apply pos_clamp_val in PM; [|unfold tiny; lra].
  destruct (IC (box_counted 2 2 2 ltac:(lra) ltac:(lra) ltac:(lra) B2)) as (C0 & C1 & C2 & C3).
  split; [exact R1|]. split; [exact NN|]. split; [exact FS|]. split; [exact SU|]. split; [cbn; lra|].
  split; [split; [exact C0|]; split; [lra|]; split; [lra|]; split; lra|].
  split; [unfold big_sandbox, big_box, tiny; repeat split; lra|].
  assert (HSH : forall sn, In sn [[0]%nat] -> In sn (map sh_name (e_shapes e))) by (intros sn [<-|[]]; cbn; left; exact EN).
  destruct (C156_sandbox diag_eig sd e (fun i => [S i]) rnd [[0]%nat] 10 10 10 2 2 2 3 default_name diag_eig_diagonal R1 ltac:(cbn; lia) NN eq_refl ltac:(lra) ltac:(lra) ltac:(lra) ltac:(lia) ltac:(lia) ltac:(lia) ltac:(discriminate) HSH)
    as (e' & gr & l & r & f & b & fl & E & _ & _ & _ & _ & P1 & P2 & P3 & P4 & P5 & LG & HG & _).
  assert (EN' : gr ++ [l; r; f; b; fl] = snd (create_sandbox diag_eig sd (fun i => [S i]) rnd [[0]%nat] 10 10 10 2 2 2 3 default_name e)) by (rewrite E; reflexivity).
  assert (EL : [l; r; f; b; fl] = [[10]; [12]; [14]; [16]; [18]]%nat).
  { apply (f_equal (skipn 8)) in EN'. change 8%nat with (2 * 2 * 2)%nat in EN' at 1. rewrite <- LG, skipn_app, skipn_all, Nat.sub_diag in EN'. exact EN'. }
  exists e', gr. rewrite <- EL. split; [exact E|]. split; [exact LG|].
  split.
  { destruct (HG 1%nat 1%nat 1%nat ltac:(lia) ltac:(lia) ltac:(lia)) as (n & g & sn & s' & G1 & G2 & G3 & G4 & _ & G5 & G6). exists n, g. split; [exact G1|]. split; [exact G2|].
    split; [rewrite G5; cbn [INR]; apply (f_equal3 mkV); lra|]. cbn in G3. apply some_eq in G3. subst sn. assert (s' = s) by congruence. subst s'. replace 24 with (sh_mass s * 3) by (rewrite PM; lra). exact G6. }
  assert (fl = [18]%nat /\ f = [14]%nat) as [EF EF'] by (split; congruence). rewrite <- EF, <- EF'.
  assert (PF := P5). destruct PF as (F1 & m & F2 & F3). apply pos_clamp_val in F2; [|unfold tiny; lra].
  split. { assert (BX : create_box (10 + 2 * (10 / 10)) (10 / 10) (10 + 2 * (10 / 10)) = create_box 12 1 12) by (apply (f_equal3 create_box); field).
    assert (RX : mkV 0 (10 / 10 / 2) 0 = mkV 0 (1 / 2) 0) by (apply (f_equal3 mkV); field). rewrite BX, RX in F1. exact F1. }
  split. { replace 432 with (m * 3) by (rewrite F2; lra). exact F3. }
  assert (PT : 0 < 10 / 10) by lra. assert (PW : 0 < 10 + 2 * (10 / 10)) by lra. assert (PH : 0 < 10) by lra.
  split. { apply (fixed_box_points _ _ _ _ _ _ _ _ (mkV 5 6 5) PW PH PT P3). cbn [vx vy vz]. rewrite !abs_le. lra. }
  intros (n & Hn & HO).
  destruct Hn as [<-|[<-|[<-|[<-|[<-|[]]]]]];
    [apply (fixed_box_points _ _ _ _ _ _ _ _ _ PT PH PH P1) in HO|apply (fixed_box_points _ _ _ _ _ _ _ _ _ PT PH PH P2) in HO
    |apply (fixed_box_points _ _ _ _ _ _ _ _ _ PW PH PT P3) in HO|apply (fixed_box_points _ _ _ _ _ _ _ _ _ PW PH PT P4) in HO
    |apply (fixed_box_points _ _ _ _ _ _ _ _ _ PW PT PW P5) in HO]; cbn [vx vy vz] in HO; rewrite !abs_le in HO; lra.
Qed.
Print Assumptions C156_sandbox.
Print Assumptions C156_closed.
Print Assumptions C156_simulates.
Print Assumptions C156_none.
