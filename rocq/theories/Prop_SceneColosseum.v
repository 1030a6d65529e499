(** C147: a colosseum, levels of arches with a ring of stones on top of every level. *)
From Verif Require Import Base QuatModel QuatProofs VecModel VecProofs BvhModel BvhSpec GridModel VolModel RigidTypes RigidSpec CollModel BaryModel MassModel MassSpec MassProofs MassProofs2 Prop_Mass
  StepModel StepProofs StepProofs2 ReadySpec ReadyProofs ConSpec ApiModel ApiSpec ApiProofs RotModel RotProofs QuatMatProofs Prop_Rotation Prop_Api Prop_Api2
  ProxProofs SurfModel SurfSpec SceneModel SceneSpec SceneMesh SceneProofs SceneShape SceneBox SceneTrap SceneWedge ScenePlace Prop_Scene Prop_SceneChain Prop_SceneLattice Prop_SceneTower Prop_SceneArch.
From Coq Require Import Permutation.
Open Scope R_scope.

(** ** what is built *)
(** the bodies called [ns] are the stones of an arch at the pose (r, q) (see C146) *)
Definition arch_stands (e' : engine) (names : list name) (r : vec3) (q : quat) (width height depth : R) (ps ars : Z) (density : R) (mat : name) : Prop :=
  let h := (height - width / 2) / IZR ps in let a := PI / (2 * IZR ars) in
  Z.of_nat (length names) = (2 * ps + ars)%Z /\
  (forall (right : bool) k, (Z.of_nat k < ps)%Z -> exists n, nth_error names (2 * k + if right then 1 else 0) = Some n /\
     stands e' n (create_box (width / 5) h depth) (at_pose r q (mkV ((if right then 2 / 5 else - (2 / 5)) * width) ((INR k + 1 / 2) * h) 0)) q /\
     exists m, pos_up_to_clamp (width / 5 * h * depth) m /\ at_rest e' n false mat (m * density)) /\
  (forall k, (Z.of_nat k < ars)%Z -> exists n, nth_error names (2 * Z.to_nat ps + k) = Some n /\
     stands e' n (ring_stone (3 / 10 * width) (1 / 2 * width) depth a) (at_pose r q (mkV 0 (height - width / 2) 0)) (q_prod q (q_Rz ((2 * INR k + 1) * a))) /\
     at_rest e' n false mat (ring_volume width depth a * density)).
(** the stones of the arch share at most the joints between neighbours (see C146) *)
Definition arch_joints (e' : engine) (names : list name) (r : vec3) (q : quat) (width height depth : R) (ps ars : Z) : Prop :=
  let top := height - width / 2 in let h := top / IZR ps in let delta := PI / IZR ars in
  let pier (right : bool) k n := (Z.of_nat k < ps)%Z /\ nth_error names (2 * k + if right then 1 else 0) = Some n in
  let ring k n := (Z.of_nat k < ars)%Z /\ nth_error names (2 * Z.to_nat ps + k) = Some n in
  (forall right k n p, pier right k n -> occupies e' n p -> let x := in_arch r q p in
     Rabs (vx x - (if right then 2 / 5 else - (2 / 5)) * width) <= width / 10 /\ INR k * h <= vy x <= INR (S k) * h /\ Rabs (vz x) <= depth / 2) /\
  (forall k n p, ring k n -> occupies e' n p -> let x := in_arch r q p in
     Rabs (vz x) <= depth / 2 /\ exists rho t, 3 / 10 * width * cos (delta / 2) <= rho <= width / 2 /\ INR k * delta <= t <= INR (S k) * delta /\ vx x = rho * cos t /\ vy x = top + rho * sin t) /\
  (forall right1 k1 n1 right2 k2 n2 p, pier right1 k1 n1 -> pier right2 k2 n2 -> n1 <> n2 -> occupies e' n1 p -> occupies e' n2 p ->
     right1 = right2 /\ (k2 = S k1 \/ k1 = S k2) /\ vy (in_arch r q p) = INR (Nat.max k1 k2) * h) /\
  (forall right k n l m p, pier right k n -> ring l m -> occupies e' n p -> occupies e' m p ->
     Z.of_nat (S k) = ps /\ (if right then l = O else Z.of_nat (S l) = ars) /\ vy (in_arch r q p) = top) /\
  (forall k n l m p, ring k n -> ring l m -> (k < l)%nat -> occupies e' n p -> occupies e' m p ->
     l = S k /\ vx (in_arch r q p) * sin (INR l * delta) = (vy (in_arch r q p) - top) * cos (INR l * delta)).
(** the bodies called [names] are the bricks of a tower at the pose (r, q) (see C142) *)
Definition tower_stands (e' : engine) (names : list name) (r : vec3) (q : quat) (outer inner height : R) (layers segments : nat) (use_cubes : bool) (density : R) (mat : name) (safety : R) : Prop :=
  let h := height / INR layers in let t := slope segments safety in
  length names = (layers * segments)%nat /\
  (forall lay seg, (lay < layers)%nat -> (seg < segments)%nat -> exists n, nth_error names (lay * segments + seg) = Some n /\
     let angle := brick_angle segments lay seg in
     stands e' n (wall_brick outer inner h t use_cubes) (at_pose r q (brick_centre outer inner h angle lay)) (q_prod q (q_Ry angle)) /\
     exists m, pos_up_to_clamp (brick_volume outer inner h t use_cubes) m /\ at_rest e' n false mat (m * density)).
Definition tower_joints (e' : engine) (names : list name) (r : vec3) (q : quat) (outer inner height : R) (layers segments : nat) (safety : R) : Prop :=
  let h := height / INR layers in
  (forall lay seg n p, (lay < layers)%nat -> (seg < segments)%nat -> nth_error names (lay * segments + seg) = Some n -> occupies e' n p ->
     let x := q_rotate (q_conj q) (vsub p r) in let angle := brick_angle segments lay seg in
     INR lay * h <= vy x <= INR (S lay) * h /\
     exists z u, inner <= z <= outer /\ Rabs u <= slope segments safety * z /\ vx x = u * cos angle - z * sin angle /\ vz x = - (u * sin angle) - z * cos angle) /\
  (safety < 1 -> forall lay1 seg1 lay2 seg2 n1 n2 p, (lay1 < layers)%nat -> (seg1 < segments)%nat -> (lay2 < layers)%nat -> (seg2 < segments)%nat -> n1 <> n2 ->
     nth_error names (lay1 * segments + seg1) = Some n1 -> nth_error names (lay2 * segments + seg2) = Some n2 -> occupies e' n1 p -> occupies e' n2 p ->
     (lay2 = S lay1 \/ lay1 = S lay2) /\ vy (q_rotate (q_conj q) (vsub p r)) = INR (Nat.max lay1 lay2) * h).

(** the sizes of the arches and of the ring on top of a level *)
Definition arch_width (inner : R) (arches : nat) (safety : R) : R := 2 * (slope arches safety * inner).
Definition level_height (height : R) (levels : nat) : R := height / INR levels.
(** arch number k of level lvl stands on the floor of the level, at the angle 2 pi k / arches, and faces the middle *)
Definition arch_angle (arches k : nat) : R := 2 * PI / INR arches * INR k.
Definition arch_centre (outer inner height : R) (levels arches lvl k : nat) : vec3 :=
  mkV (- ((outer + inner) / 2 * sin (arch_angle arches k))) (INR lvl * level_height height levels) (- ((outer + inner) / 2 * cos (arch_angle arches k))).
(** the names that generate_unique_name returns, to all the builders that are called, are new and different from one another *)
Definition new_names3 (e : engine) (fresh : nat -> nat -> nat -> name) : Prop :=
  (forall l k i l' k' i', fresh l k i = fresh l' k' i' -> l = l' /\ k = k' /\ i = i') /\
  (forall l k i, ~ In (fresh l k i) (map b_name (e_bodies e)) /\ ~ In (fresh l k i) (map sh_name (e_shapes e))).
Definition big_colosseum (outer inner height : R) (levels arches : nat) (safety : R) : Prop :=
  let w := arch_width inner arches safety in let H := level_height height levels in
  big_arch w ((9 / 10 * H - w / 2) / 5) (outer - inner) (PI / 18) /\ big_brick outer inner (1 / 10 * H) (slope arches safety) false.

(** ** one builder after another *)
Lemma f2_impl {A B} (P Q : A -> B -> Prop) l l' : (forall a b, P a b -> Q a b) -> Forall2 P l l' -> Forall2 Q l l'.
Proof. intros K F. induction F; constructor; auto. Qed.
Lemma adds_refl e : adds e e [].
Proof. unfold adds. rewrite app_nil_r. repeat split; auto. Qed.
Lemma adds_trans e e1 e2 ns ms : adds e e1 ns -> adds e1 e2 ms -> adds e e2 (ns ++ ms).
Proof.
  intros (A1 & A2 & A3 & A4 & A5 & A6 & A7 & A8) (B1 & B2 & B3 & B4 & B5 & B6 & B7 & B8).
  split; [rewrite B1, A1, app_assoc; reflexivity|]. split; [|split; [|repeat split; congruence]].
  - intros m Hm. rewrite B2; [apply A2; auto|]. rewrite A1. apply in_or_app; auto.
  - intros m Hm. rewrite B3; [apply A3; auto|]. destruct (in_dec (list_eq_dec Nat.eq_dec) m (map sh_name (e_shapes e1))) as [H|H]; auto. exfalso.
    apply (ApiProofs.find_none sh_name) in H. pose proof (A3 m Hm) as E. unfold find_shape in E. rewrite H in E. symmetry in E. apply (ApiProofs.find_none sh_name) in E. auto.
Qed.
Section Chain.
Context {A : Type} (f : A -> engine -> outcome * list name) (fr : A -> nat -> name) (Inv : engine -> Prop) (P : A -> engine -> list name -> Prop).
Lemma each_named_ok : forall l e,
  (forall a i b j, fr a i = fr b j -> a = b /\ i = j) -> NoDup l ->
  (forall a e, In a l -> Inv e -> new_names e (fr a) -> exists e' ns, f a e = (Done e', ns) /\ Inv e' /\ adds e e' ns /\ e_hinges e' = e_hinges e /\ NoDup ns /\ names_from (fr a) e e' ns /\ P a e' ns) ->
  (forall a e e' ns, P a e ns -> (forall n, In n ns -> find_body e' n = find_body e n) -> P a e' ns) ->
  Inv e -> (forall a, In a l -> new_names e (fr a)) ->
  exists e' parts, each_named f l e = (Done e', concat parts) /\ Inv e' /\ adds e e' (concat parts) /\ e_hinges e' = e_hinges e /\ NoDup (concat parts) /\
    (forall n, In n (concat parts) -> exists a i, In a l /\ n = fr a i) /\
    (forall m, In m (map sh_name (e_shapes e')) -> In m (map sh_name (e_shapes e)) \/ exists a i, In a l /\ m = fr a i) /\
    Forall2 (fun a ns => P a e' ns) l parts.
Proof.
  induction l as [|a l IH]; intros e HI ND HF HP He HN.
  - exists e, []. cbn. split; [reflexivity|]. split; [exact He|]. split; [apply adds_refl|]. split; [reflexivity|]. split; [constructor|]. split; [tauto|]. split; [auto|constructor].
  - inversion ND as [|a' l' NA NL]; subst. destruct (HF a e (or_introl eq_refl) He (HN a (or_introl eq_refl))) as (e1 & ns & E1 & I1 & A1 & H1 & D1 & (F1 & F1') & P1).
    assert (HN1 : forall b, In b l -> new_names e1 (fr b)).
    { intros b Hb. destruct (HN b (or_intror Hb)) as [G1 G2]. split; [exact G1|]. intros i. destruct (G2 i) as [G3 G4]. split.
      - destruct A1 as (A1 & _). rewrite A1, in_app_iff. intros [K|K]; [tauto|]. destruct (F1 _ K) as (j & Ej). apply HI in Ej as [-> _]. tauto.
      - intros K. destruct (F1' _ K) as [K'|(j & Ej)]; [tauto|]. apply HI in Ej as [-> _]. tauto. }
    destruct (IH e1 HI NL (fun b e Hb => HF b e (or_intror Hb)) HP I1 HN1) as (e2 & parts & E2 & I2 & A2 & H2 & D2 & F2 & F2' & P2).
    exists e2, (ns :: parts). cbn [each_named concat]. rewrite E1, E2. split; [reflexivity|]. split; [exact I2|].
    split; [exact (adds_trans _ _ _ _ _ A1 A2)|]. split; [congruence|].
    split. { apply nd_app; auto. intros x Hx Hy. destruct (F1 x Hx) as (i & Ei). destruct (F2 x Hy) as (b & j & Hb & Ej). rewrite Ei in Ej. apply HI in Ej as [-> _]. tauto. }
    split. { intros n Hn. apply in_app_or in Hn as [Hn|Hn]; [destruct (F1 n Hn) as (i & ->); exists a, i; split; [left; reflexivity|reflexivity]|].
      destruct (F2 n Hn) as (b & j & Hb & ->). exists b, j. split; [right; exact Hb|reflexivity]. }
    split. { intros m Hm. destruct (F2' m Hm) as [K|(b & j & Hb & ->)]; [|right; exists b, j; split; [right; exact Hb|reflexivity]].
      destruct (F1' m K) as [K'|(j & ->)]; [left; exact K'|right; exists a, j; split; [left; reflexivity|reflexivity]]. }
    constructor; [|exact P2]. apply (HP a e1); [exact P1|]. intros n Hn. destruct A2 as (_ & A2 & _). apply A2. destruct A1 as (A1 & _). rewrite A1. apply in_or_app; auto.
Qed.
End Chain.

(** what is said about a body stays true as long as the body does not change *)
Lemma stands_keep e e' n VT r q : find_body e' n = find_body e n -> stands e n VT r q -> stands e' n VT r q.
Proof. intros E (W & T & (b & s & H1 & H2) & H3). exists W, T. split; [exists b, s; rewrite E; auto|exact H3]. Qed.
Lemma rest_keep e e' n fx mat m : find_body e' n = find_body e n -> at_rest e n fx mat m -> at_rest e' n fx mat m.
Proof. intros E (b & H). exists b. rewrite E. exact H. Qed.
Lemma occ_keep e e' n p : find_body e' n = find_body e n -> occupies e' n p -> occupies e n p.
Proof. intros E (W & T & (b & s & H1 & H2) & H3). exists W, T. split; [exists b, s; rewrite <- E; auto|exact H3]. Qed.
Lemma arch_stands_keep e e' names r q width height depth ps ars density mat : (forall n, In n names -> find_body e' n = find_body e n) ->
  arch_stands e names r q width height depth ps ars density mat -> arch_stands e' names r q width height depth ps ars density mat.
Proof.
  intros HK (H0 & H1 & H2). split; [exact H0|]. split.
  - intros right k Hk. destruct (H1 right k Hk) as (n & Hn & S & m & Hm & T). pose proof (HK n (nth_error_In _ _ Hn)) as E. exists n. split; [exact Hn|]. split; [exact (stands_keep _ _ _ _ _ _ E S)|].
    exists m. split; [exact Hm|exact (rest_keep _ _ _ _ _ _ E T)].
  - intros k Hk. destruct (H2 k Hk) as (n & Hn & S & T). pose proof (HK n (nth_error_In _ _ Hn)) as E. exists n. split; [exact Hn|]. split; [exact (stands_keep _ _ _ _ _ _ E S)|exact (rest_keep _ _ _ _ _ _ E T)].
Qed.
Lemma tower_stands_keep e e' names r q outer inner height layers segments uc density mat safety : (forall n, In n names -> find_body e' n = find_body e n) ->
  tower_stands e names r q outer inner height layers segments uc density mat safety -> tower_stands e' names r q outer inner height layers segments uc density mat safety.
Proof.
  intros HK (H0 & H1). split; [exact H0|]. intros lay seg Hl Hs. destruct (H1 lay seg Hl Hs) as (n & Hn & S & m & Hm & T). pose proof (HK n (nth_error_In _ _ Hn)) as E. exists n. split; [exact Hn|].
  split; [exact (stands_keep _ _ _ _ _ _ E S)|]. exists m. split; [exact Hm|exact (rest_keep _ _ _ _ _ _ E T)].
Qed.
Lemma arch_joints_keep e e' names r q width height depth ps ars : (forall n, In n names -> find_body e' n = find_body e n) ->
  arch_joints e names r q width height depth ps ars -> arch_joints e' names r q width height depth ps ars.
Proof.
  intros HK (H1 & H2 & H3 & H4 & H5). assert (K : forall i n p, nth_error names i = Some n -> occupies e' n p -> occupies e n p). { intros i n p Hn. apply occ_keep. apply HK. exact (nth_error_In _ _ Hn). }
  split; [|split; [|split; [|split]]].
  - intros right k n p Hn HO. apply (H1 right k n p Hn). exact (K _ _ _ (proj2 Hn) HO).
  - intros k n p Hn HO. apply (H2 k n p Hn). exact (K _ _ _ (proj2 Hn) HO).
  - intros r1 k1 n1 r2 k2 n2 p A B NE O1 O2. exact (H3 r1 k1 n1 r2 k2 n2 p A B NE (K _ _ _ (proj2 A) O1) (K _ _ _ (proj2 B) O2)).
  - intros r1 k1 n1 k2 n2 p A B O1 O2. exact (H4 r1 k1 n1 k2 n2 p A B (K _ _ _ (proj2 A) O1) (K _ _ _ (proj2 B) O2)).
  - intros k1 n1 k2 n2 p A B L O1 O2. exact (H5 k1 n1 k2 n2 p A B L (K _ _ _ (proj2 A) O1) (K _ _ _ (proj2 B) O2)).
Qed.
Lemma tower_joints_keep e e' names r q outer inner height layers segments safety : (forall n, In n names -> find_body e' n = find_body e n) ->
  tower_joints e names r q outer inner height layers segments safety -> tower_joints e' names r q outer inner height layers segments safety.
Proof.
  intros HK (H1 & H2). assert (K : forall i n p, nth_error names i = Some n -> occupies e' n p -> occupies e n p). { intros i n p Hn. apply occ_keep. apply HK. exact (nth_error_In _ _ Hn). }
  split.
  - intros lay seg n p A B Hn HO. exact (H1 lay seg n p A B Hn (K _ _ _ Hn HO)).
  - intros S lay1 seg1 lay2 seg2 n1 n2 p A B C D NE N1 N2 O1 O2. exact (H2 S lay1 seg1 lay2 seg2 n1 n2 p A B C D NE N1 N2 (K _ _ _ N1 O1) (K _ _ _ N2 O2)).
Qed.

(** ** the sizes *)
Lemma width_eq inner arches safety : (3 <= arches)%nat -> colosseum_width inner arches safety = arch_width inner arches safety.
Proof. intros H. unfold colosseum_width, arch_width, slope. cbv zeta. rewrite !Rmult_assoc, code_slope by auto. ring. Qed.
Lemma calls_length levels arches : length (flat_map (fun lvl => map (fun k => (lvl, k)) (seq 0 (S arches))) (seq 0 levels)) = (levels * S arches)%nat.
Proof. rewrite (flat_map_len _ (S arches)); [rewrite seq_length; reflexivity|]. intros a _. rewrite map_length, seq_length. reflexivity. Qed.
Lemma calls_nth levels arches lvl k : (lvl < levels)%nat -> (k <= arches)%nat -> nth_error (flat_map (fun lvl => map (fun k => (lvl, k)) (seq 0 (S arches))) (seq 0 levels)) (lvl * S arches + k) = Some (lvl, k).
Proof.
  intros H1 H2. rewrite (nth_flat_map _ (S arches) (seq 0 levels) lvl k lvl); [|intros; rewrite map_length, seq_length; reflexivity|apply seq_nth_error; auto|lia].
  rewrite nth_error_map, seq_nth_error by lia. reflexivity.
Qed.
Lemma calls_in levels arches x : In x (flat_map (fun lvl => map (fun k => (lvl, k)) (seq 0 (S arches))) (seq 0 levels)) <-> (fst x < levels)%nat /\ (snd x <= arches)%nat.
Proof.
  rewrite in_flat_map. split.
  - intros (l & Hl & Hx). apply in_map_iff in Hx as (k & <- & Hk). apply in_seq in Hl, Hk. cbn. lia.
  - intros [H1 H2]. destruct x as [l k]. cbn [fst snd] in H1, H2. exists l. split; [apply in_seq; lia|]. apply in_map_iff. exists k. split; [reflexivity|]. apply in_seq. lia.
Qed.
Lemma calls_nodup levels arches : NoDup (flat_map (fun lvl => map (fun k => (lvl, k)) (seq 0 (S arches))) (seq 0 levels)).
Proof.
  generalize (seq_NoDup levels 0). induction (seq 0 levels) as [|l t IH]; intros ND; cbn [flat_map]; [constructor|]. inversion ND; subst. apply nd_app; [|apply IH; auto|].
  - apply FinFun.Injective_map_NoDup; [intros a b E; congruence|apply seq_NoDup].
  - intros x Hx Hy. apply in_map_iff in Hx as (k & <- & _). apply in_flat_map in Hy as (l' & Hl & Hy). apply in_map_iff in Hy as (k' & E & _). congruence.
Qed.

(** ** what one call builds *)
Section Calls.
Variables (eig : mat3 -> vec3 * mat3) (sd : list vec3 -> list tri -> vec3 -> R) (fresh : nat -> nat -> nat -> name) (r : vec3) (q : quat) (outer inner height : R) (levels arches : nat) (density : R) (mat : name) (safety : R).
Let w := arch_width inner arches safety.
Let H := level_height height levels.
Let d := outer - inner.
Definition arch_at (e : engine) (lvl k : nat) (ns : list name) : Prop :=
  arch_stands e ns (at_pose r q (arch_centre outer inner height levels arches lvl k)) (q_prod q (q_Ry (arch_angle arches k))) w (9 / 10 * H) d 5 9 density mat.
Definition ring_at (e : engine) (lvl : nat) (ns : list name) : Prop :=
  tower_stands e ns (at_pose r q (mkV 0 ((INR lvl + 9 / 10) * H) 0)) q outer inner (1 / 10 * H) 1 arches false density mat safety.
Let arch_ok (e : engine) (lvl k : nat) (ns : list name) : Prop :=
  arch_at e lvl k ns /\ arch_joints e ns (at_pose r q (arch_centre outer inner height levels arches lvl k)) (q_prod q (q_Ry (arch_angle arches k))) w (9 / 10 * H) d 5 9.
Let ring_ok (e : engine) (lvl : nat) (ns : list name) : Prop :=
  ring_at e lvl ns /\ tower_joints e ns (at_pose r q (mkV 0 ((INR lvl + 9 / 10) * H) 0)) q outer inner (1 / 10 * H) 1 arches safety.
Let call_ok (x : nat * nat) (e : engine) (ns : list name) : Prop := if Nat.ltb (snd x) arches then arch_ok e (fst x) (snd x) ns else ring_ok e (fst x) ns.
Lemma calls_ok e : eig_diagonal eig -> reach eig sd sane_params e -> (2 <= p_resolution (e_params e))%Z -> new_names3 e fresh -> exist_material (e_lib e) mat = true -> is_unit q ->
  0 < inner -> inner < outer -> (1 <= levels)%nat -> (3 <= arches)%nat -> 0 < safety -> w / 2 < 9 / 10 * H -> 0 < density -> clear_arch w d (PI / 18) ->
  exists e' parts, create_colosseum eig sd fresh r q outer inner height levels arches density mat safety e = (Done e', concat parts) /\ reach eig sd sane_params e' /\
    adds e e' (concat parts) /\ e_hinges e' = e_hinges e /\ NoDup (concat parts) /\ length parts = (levels * S arches)%nat /\
    (set_up e -> big_colosseum outer inner height levels arches safety -> set_up e') /\
    (forall lvl k, (lvl < levels)%nat -> (k < arches)%nat -> exists ns, nth_error parts (lvl * S arches + k) = Some ns /\ arch_ok e' lvl k ns) /\
    (forall lvl, (lvl < levels)%nat -> exists ns, nth_error parts (lvl * S arches + arches) = Some ns /\ ring_ok e' lvl ns) /\
    Forall2 (fun x ns => call_ok x e' ns) (flat_map (fun lvl => map (fun k => (lvl, k)) (seq 0 (S arches))) (seq 0 levels)) parts.
Proof.
  intros HE HR HN (HI & HF) HM HQ Hi Ho HL HA Hs Hw Hd HC.
  assert (Pw : 0 < w). { unfold w, arch_width. pose proof (slope_pos arches safety HA Hs). assert (0 < slope arches safety * inner) by (apply Rmult_lt_0_compat; auto). lra. }
  assert (PH : 0 < H) by lra.
  assert (EA : PI / (2 * IZR 9) = PI / 18) by field.
  set (Inv := fun e1 => reach eig sd sane_params e1 /\ e_params e1 = e_params e /\ e_lib e1 = e_lib e /\ (set_up e -> big_colosseum outer inner height levels arches safety -> set_up e1)).
  destruct (each_named_ok (colosseum_call eig sd fresh r q outer inner height levels arches density mat safety) (fun x => fresh (fst x) (snd x)) Inv call_ok
    (flat_map (fun lvl => map (fun k => (lvl, k)) (seq 0 (S arches))) (seq 0 levels)) e) as (e' & parts & E & (R' & _ & _ & U') & A' & H' & D' & _ & _ & F').
  - intros [l k] i [l' k'] j E. cbn [fst snd] in E. apply HI in E as (-> & -> & ->). auto.
  - apply calls_nodup.
  - intros [lvl k] e1 Hx (R1 & P1 & L1 & U1) HN1. apply calls_in in Hx as [Hl Hk]. cbn [fst snd] in Hl, Hk, HN1. unfold colosseum_call. unfold call_ok. cbn [fst snd]. fold (level_height height levels). fold H.
    assert (RES : (2 <= p_resolution (e_params e1))%Z) by (rewrite P1; exact HN). assert (MAT : exist_material (e_lib e1) mat = true) by (rewrite L1; exact HM).
    destruct (Nat.ltb_spec k arches) as [Hka|Hka].
    + unfold in_world. rewrite width_eq by auto. fold w d. replace (H * (9 / 10)) with (9 / 10 * H) by ring.
      assert (EC : vadd (q_rotate q (q_rotate (q_Ry (2 * PI / INR arches * INR k)) (mkV 0 (INR lvl * H) (- ((outer + inner) / 2))))) r = at_pose r q (arch_centre outer inner height levels arches lvl k)).
      { unfold at_pose. apply (f_equal2 vadd); [|reflexivity]. apply f_equal. rewrite Ry_rotate. unfold arch_centre. fold (arch_angle arches k). fold H. cbn [vx vy vz]. apply (f_equal3 mkV); ring. }
      rewrite EC. fold (arch_angle arches k).
      assert (UQ : is_unit (q_prod q (q_Ry (arch_angle arches k)))) by (apply q_prod_unit; [exact HQ|apply Ry_unit]).
      assert (AA : arch_arguments w (9 / 10 * H) d 5 9 density) by (unfold arch_arguments, d; split; [lra|split; [lra|split; [lra|split; [lia|split; [lia|split; [exists 4%Z; reflexivity|lra]]]]]]).
      assert (CA : clear_arch w d (PI / (2 * IZR 9))) by (rewrite EA; exact HC).
      destruct (C146_arch eig sd e1 (fresh lvl k) (at_pose r q (arch_centre outer inner height levels arches lvl k)) (q_prod q (q_Ry (arch_angle arches k))) w (9 / 10 * H) d 5 9 density mat HE R1 RES HN1 MAT UQ AA CA) as (e2 & ns & E2 & R2 & A2 & H2 & LN & ND & NF & HPi & HRi & HU).
      exists e2, ns. split; [exact E2|]. split.
      { pose proof A2 as (_ & _ & _ & _ & _ & L2 & P2 & _). split; [exact R2|]. split; [congruence|]. split; [congruence|]. intros HS0 HB. apply HU; [apply U1; auto|]. rewrite EA. exact (proj1 HB). }
      split; [exact A2|]. split; [exact H2|]. split; [exact ND|]. split; [exact NF|]. split; [split; [exact LN|split; [exact HPi|exact HRi]]|].
      exact (C146_apart eig sd e1 (fresh lvl k) _ _ w (9 / 10 * H) d 5 9 density mat e2 ns HE R1 RES HN1 MAT UQ CA E2).
    + unfold in_world. rewrite q_prod_id_r. replace (H * (1 / 10)) with (1 / 10 * H) by ring. replace (INR lvl * H + H * (9 / 10)) with ((INR lvl + 9 / 10) * H) by ring.
      fold (at_pose r q (mkV 0 ((INR lvl + 9 / 10) * H) 0)).
      assert (P10 : 0 < 1 / 10 * H) by lra.
      destruct (C142_tower eig sd e1 (fresh lvl k) (at_pose r q (mkV 0 ((INR lvl + 9 / 10) * H) 0)) q outer inner (1 / 10 * H) 1 arches false density mat safety HE R1 RES HN1 MAT HQ Hi Ho P10 (le_n 1) HA Hs)
        as (e2 & ns & E2 & R2 & A2 & H2 & LN & ND & NF & HBr & HU).
      exists e2, ns. split; [exact E2|]. split.
      { pose proof A2 as (_ & _ & _ & _ & _ & L2 & P2 & _). split; [exact R2|]. split; [congruence|]. split; [congruence|]. intros HS0 HB. apply HU; [apply U1; auto|lra|].
        replace (1 / 10 * H / INR 1) with (1 / 10 * H) by (cbn [INR]; field). exact (proj2 HB). }
      split; [exact A2|]. split; [exact H2|]. split; [exact ND|]. split; [exact NF|]. split; [split; [exact LN|exact HBr]|].
      exact (C142_apart eig sd e1 (fresh lvl k) _ q outer inner (1 / 10 * H) 1 arches false density mat safety e2 ns HE R1 RES HN1 MAT HQ Hi Ho P10 (le_n 1) HA Hs E2).
  - intros [lvl k] e1 e2 ns HP HK. unfold call_ok in *. cbn [fst snd] in *. destruct (Nat.ltb k arches); destruct HP as [K1 K2].
    + split; [exact (arch_stands_keep _ _ _ _ _ _ _ _ _ _ _ _ HK K1)|exact (arch_joints_keep _ _ _ _ _ _ _ _ _ _ HK K2)].
    + split; [exact (tower_stands_keep _ _ _ _ _ _ _ _ _ _ _ _ _ _ HK K1)|exact (tower_joints_keep _ _ _ _ _ _ _ _ _ _ _ HK K2)].
  - split; [exact HR|]. split; [reflexivity|]. split; [reflexivity|auto].
  - intros [lvl k] _. cbn [fst snd]. split; [intros i j Eij; apply HI in Eij; tauto|]. intros i. exact (HF lvl k i).
  - exists e', parts. split. { unfold create_colosseum. destruct (Nat.eqb_spec levels 0); [lia|]. destruct (Nat.eqb_spec arches 0); [lia|]. cbn [orb]. exact E. }
    split; [exact R'|]. split; [exact A'|]. split; [exact H'|]. split; [exact D'|].
    split. { rewrite <- (f2_len F'). apply calls_length. }
    split; [exact U'|].
    assert (G : forall lvl k, (lvl < levels)%nat -> (k <= arches)%nat -> exists ns, nth_error parts (lvl * S arches + k) = Some ns /\ call_ok (lvl, k) e' ns).
    { intros lvl k Hl Hk. exact (f2_hit F' (calls_nth levels arches lvl k Hl Hk)). }
    split; [|split; [|exact F']].
    + intros lvl k Hl Hk. destruct (G lvl k Hl ltac:(lia)) as (ns & N1 & N2). unfold call_ok in N2. cbn [fst snd] in N2. destruct (Nat.ltb_spec k arches); [|lia]. exists ns. auto.
    + intros lvl Hl. destruct (G lvl arches Hl ltac:(lia)) as (ns & N1 & N2). unfold call_ok in N2. cbn [fst snd] in N2. destruct (Nat.ltb_spec arches arches); [lia|]. exists ns. auto.
Qed.
End Calls.

(** ** what is built *)
Theorem C147_colosseum eig sd e fresh r q outer inner height levels arches density mat safety : eig_diagonal eig -> reach eig sd sane_params e -> (2 <= p_resolution (e_params e))%Z ->
  new_names3 e fresh -> exist_material (e_lib e) mat = true -> is_unit q -> 0 < inner -> inner < outer -> (1 <= levels)%nat -> (3 <= arches)%nat -> 0 < safety -> 0 < density ->
  let w := arch_width inner arches safety in let H := level_height height levels in w / 2 < 9 / 10 * H -> clear_arch w (outer - inner) (PI / 18) ->
  exists e' parts, create_colosseum eig sd fresh r q outer inner height levels arches density mat safety e = (Done e', concat parts) /\ reach eig sd sane_params e' /\
    adds e e' (concat parts) /\ e_hinges e' = e_hinges e /\ NoDup (concat parts) /\ length (concat parts) = (20 * (levels * arches))%nat /\ length parts = (levels * S arches)%nat /\
    (forall lvl k, (lvl < levels)%nat -> (k < arches)%nat -> exists ns, nth_error parts (lvl * S arches + k) = Some ns /\
       arch_stands e' ns (at_pose r q (arch_centre outer inner height levels arches lvl k)) (q_prod q (q_Ry (arch_angle arches k))) w (9 / 10 * H) (outer - inner) 5 9 density mat) /\
    (forall lvl, (lvl < levels)%nat -> exists ns, nth_error parts (lvl * S arches + arches) = Some ns /\
       tower_stands e' ns (at_pose r q (mkV 0 ((INR lvl + 9 / 10) * H) 0)) q outer inner (1 / 10 * H) 1 arches false density mat safety) /\
    (set_up e -> big_colosseum outer inner height levels arches safety -> set_up e').
Proof.
  intros HE HR HN HF HM HQ Hi Ho HL HA Hs Hd w H Hw HC.
  destruct (calls_ok eig sd fresh r q outer inner height levels arches density mat safety e HE HR HN HF HM HQ Hi Ho HL HA Hs Hw Hd HC) as (e' & parts & E & R' & A' & H' & D' & LP & U & GA & GR & F).
  exists e', parts. split; [exact E|]. split; [exact R'|]. split; [exact A'|]. split; [exact H'|]. split; [exact D'|]. split.
  { assert (K : forall l ps, Forall2 (fun (x : nat * nat) (ns : list name) => length ns = if Nat.ltb (snd x) arches then 19%nat else arches) l ps -> length (concat ps) = fold_right Nat.add 0%nat (map (fun x => if Nat.ltb (snd x) arches then 19%nat else arches) l)).
    { intros l ps K. induction K as [|x ns l ps K1 K IH]; [reflexivity|]. cbn [concat map fold_right]. rewrite app_length, IH, K1. reflexivity. }
    rewrite (K _ _ ltac:(eapply f2_impl; [|exact F]; intros x ns HX; cbv beta in HX; destruct (Nat.ltb (snd x) arches); destruct HX as [HX _]; destruct HX as [HX _]; lia)). clear.
    assert (IN : forall a l, fold_right Nat.add 0%nat (map (fun x : nat * nat => if Nat.ltb (snd x) arches then 19%nat else arches) (map (fun k => (l, k)) (seq 0 a))) = if Nat.leb a arches then (19 * a)%nat else (19 * arches + (a - arches) * arches)%nat).
    { intros a l. induction a as [|a IH]; [reflexivity|]. replace (seq 0 (S a)) with (seq 0 a ++ [a]) by (symmetry; exact (List.seq_S a 0)). rewrite !map_app, fold_right_app. cbn [map fold_right Nat.add snd].
      assert (FA : forall (m : list nat) z, fold_right Nat.add z m = (fold_right Nat.add 0 m + z)%nat). { intros m z. induction m as [|y m IHm]; cbn; [reflexivity|]. rewrite IHm. lia. }
      rewrite FA, IH. destruct (Nat.leb_spec a arches), (Nat.leb_spec (S a) arches), (Nat.ltb_spec a arches); try lia; nia. }
    assert (OUT : forall n s, fold_right Nat.add 0%nat (map (fun x : nat * nat => if Nat.ltb (snd x) arches then 19%nat else arches) (flat_map (fun l => map (fun k => (l, k)) (seq 0 (S arches))) (seq s n))) = (20 * (n * arches))%nat).
    { intros n. induction n as [|n IH]; intros s; [reflexivity|]. cbn [seq flat_map]. 
      assert (FA : forall (m : list nat) z, fold_right Nat.add z m = (fold_right Nat.add 0 m + z)%nat). { intros m z. induction m as [|y m IHm]; cbn; [reflexivity|]. rewrite IHm. lia. }
      rewrite map_app, fold_right_app, IH, FA. change (0%nat :: seq 1 arches) with (seq 0 (S arches)). rewrite IN. destruct (Nat.leb_spec (S arches) arches); [lia|]. nia. }
    apply OUT. }
  split; [exact LP|]. split; [|split; [|exact U]].
  - intros lvl k Hl Hk. destruct (GA lvl k Hl Hk) as (ns & N1 & N2 & _). exists ns. split; [exact N1|exact N2].
  - intros lvl Hl. destruct (GR lvl Hl) as (ns & N1 & N2 & _). exists ns. split; [exact N1|exact N2].
Qed.

(** ** arguments that make no sense are refused, and nothing is created *)
Theorem C147_rejects eig sd e fresh r q outer inner height levels arches density mat safety : 
  (levels = 0%nat \/ arches = 0%nat \/ ((3 <= arches)%nat /\ ~ arch_arguments (arch_width inner arches safety) (9 / 10 * level_height height levels) (outer - inner) 5 9 density)) ->
  create_colosseum eig sd fresh r q outer inner height levels arches density mat safety e = (Raised e, []).
Proof.
  intros HX. unfold create_colosseum. destruct (Nat.eqb_spec levels 0) as [EL|EL]; [reflexivity|]. destruct (Nat.eqb_spec arches 0) as [EA|EA]; [reflexivity|]. cbn [orb].
  destruct HX as [HX|[HX|[H3 HX]]]; [lia|lia|]. destruct levels as [|L]; [lia|]. cbn [seq flat_map map each_named app].
  replace (colosseum_call eig sd fresh r q outer inner height (S L) arches density mat safety (0%nat, 0%nat) e) with (Raised e, [] : list name); [reflexivity|].
  unfold colosseum_call. destruct (Nat.ltb_spec 0 arches); [|lia]. unfold in_world. rewrite width_eq by auto. symmetry. apply C146_rejects.
  fold (level_height height (S L)). rewrite (Rmult_comm _ (9 / 10)). exact HX.
Qed.

(** ** the stones do not overlap *)
(** the stones of an arch are inside a box *)
Lemma arch_box e names r q width height depth ps ars : (1 <= ps)%Z -> (3 <= ars)%Z -> 0 < width -> width / 2 < height -> Z.of_nat (length names) = (2 * ps + ars)%Z -> arch_joints e names r q width height depth ps ars ->
  forall n p, In n names -> occupies e n p -> Rabs (vx (in_arch r q p)) <= width / 2 /\ 0 <= vy (in_arch r q p) <= height /\ Rabs (vz (in_arch r q p)) <= depth / 2.
Proof.
  intros Hp Ha Hw Hh LN (HP & HR & _) n p Hn HO. apply In_nth_error in Hn as (i & Hi). assert (Li : (i < length names)%nat) by (apply nth_error_Some; congruence).
  set (h := (height - width / 2) / IZR ps) in *. assert (Pp : 0 < IZR ps) by (apply (IZR_lt 0); lia). assert (Ph : 0 < h) by (apply Rdiv_lt_0_compat; lra).
  destruct (Nat.lt_ge_cases i (2 * Z.to_nat ps)) as [Lt|Ge].
  - set (right := Nat.odd i). set (k := (i / 2)%nat). assert (Ei : i = (2 * k + if right then 1 else 0)%nat).
    { unfold k, right. rewrite (Nat.div_mod i 2) at 1 by lia. f_equal. rewrite <- Nat.bit0_mod, Nat.bit0_odd. destruct (Nat.odd i); reflexivity. }
    assert (Hk : (Z.of_nat k < ps)%Z) by (destruct right; lia). rewrite Ei in Hi. destruct (HP right k n p (conj Hk Hi) HO) as (X & Y & Z). split; [|split; [|exact Z]].
    + apply abs_between in X. apply Rabs_le. destruct right; lra.
    + assert (Lk : INR (S k) <= IZR ps). { rewrite INR_IZR_INZ. apply IZR_le. lia. } assert (K0 : 0 <= INR k) by apply pos_INR. assert (M1 : 0 <= INR k * h) by nra.
      assert (M2 : INR (S k) * h <= height - width / 2). { apply Rle_trans with (IZR ps * h); [nra|]. apply Req_le. unfold h. field. lra. } lra.
  - set (k := (i - 2 * Z.to_nat ps)%nat). assert (Hk : (Z.of_nat k < ars)%Z) by (unfold k; lia). replace i with (2 * Z.to_nat ps + k)%nat in Hi by (unfold k; lia).
    destruct (HR k n p (conj Hk Hi) HO) as (Z & rho & t & R1 & T1 & X & Y). assert (Pa : 0 < IZR ars) by (apply (IZR_lt 0); lia). pose proof PI_RGT_0 as PP.
    assert (D0 : 0 < PI / IZR ars) by (apply Rdiv_lt_0_compat; auto). assert (T0 : 0 <= t). { assert (0 <= INR k * (PI / IZR ars)) by (apply Rmult_le_pos; [apply pos_INR|lra]). lra. }
    assert (T2 : t <= PI). { assert (INR (S k) * (PI / IZR ars) <= PI); [|lra]. assert (Lk : INR (S k) <= IZR ars) by (rewrite INR_IZR_INZ; apply IZR_le; lia). apply Rle_trans with (IZR ars * (PI / IZR ars)); [nra|]. apply Req_le. field. lra. }
    assert (C0 : 0 <= cos (PI / IZR ars / 2)). { apply cos_ge_0; [lra|]. assert (PI / IZR ars <= PI); [|lra]. unfold Rdiv. rewrite <- (Rmult_1_r PI) at 2. apply Rmult_le_compat_l; [lra|]. rewrite <- Rinv_1. apply Rinv_le_contravar; [lra|]. apply (IZR_le 1). lia. }
    assert (R0 : 0 <= rho). { assert (0 <= 3 / 10 * width * cos (PI / IZR ars / 2)) by (apply Rmult_le_pos; lra). lra. }
    pose proof (sin_ge_0 t T0 T2) as S0. pose proof (SIN_bound t) as [_ S1]. pose proof (COS_bound t) as [C1 C2]. split; [|split; [|exact Z]].
    + rewrite X. apply Rabs_le. split; nra.
    + rewrite Y. split; nra.
Qed.
Lemma back p r : vadd (vsub p r) r = p.
Proof. destruct p as [a b c]. unfold vadd, vsub. cbn [vx vy vz]. apply (f_equal3 mkV); ring. Qed.
(** from the frame of the arch to the frame of the colosseum *)
Lemma frame_change r q A c y p : is_unit q -> let x := in_arch r q p in let x' := in_arch (at_pose r q (mkV (- (c * sin A)) y (- (c * cos A)))) (q_prod q (q_Ry A)) p in
  vy x = vy x' + y /\ vx x = vx x' * cos A - (c - vz x') * sin A /\ vz x = - (vx x' * sin A) - (c - vz x') * cos A.
Proof.
  intros HQ x x'. assert (UQ : is_unit (q_prod q (q_Ry A))) by (apply q_prod_unit; [exact HQ|apply Ry_unit]).
  assert (EP : p = at_pose (at_pose r q (mkV (- (c * sin A)) y (- (c * cos A)))) (q_prod q (q_Ry A)) x').
  { unfold x', in_arch, at_pose at 1. rewrite q_rotate_inv_r by exact UQ. symmetry; apply back. }
  assert (EX : x = vadd (q_rotate (q_Ry A) x') (mkV (- (c * sin A)) y (- (c * cos A)))).
  { clearbody x'. unfold x, in_arch. rewrite EP. unfold at_pose. rewrite q_rotate_prod.
    replace (vsub (vadd (q_rotate q (q_rotate (q_Ry A) x')) (vadd (q_rotate q (mkV (- (c * sin A)) y (- (c * cos A)))) r)) r)
      with (q_rotate q (vadd (q_rotate (q_Ry A) x') (mkV (- (c * sin A)) y (- (c * cos A))))); [apply q_rotate_inv_l; exact HQ|].
    rewrite q_rotate_add. unfold vsub, vadd. cbn [vx vy vz]. apply (f_equal3 mkV); ring. }
  rewrite EX, Ry_rotate. unfold vadd. cbn [vx vy vz]. split; [ring|]. split; ring.
Qed.
(** two sectors *)
Lemma sectors_apart arches safety inner sa sb za ua zb ub : (3 <= arches)%nat -> 0 < safety < 1 -> 0 < inner -> (sa < sb)%nat -> (sb < arches)%nat -> inner <= za -> inner <= zb ->
  Rabs ua <= slope arches safety * za -> Rabs ub <= slope arches safety * zb ->
  ua * cos (arch_angle arches sa) - za * sin (arch_angle arches sa) = ub * cos (arch_angle arches sb) - zb * sin (arch_angle arches sb) ->
  - (ua * sin (arch_angle arches sa)) - za * cos (arch_angle arches sa) = - (ub * sin (arch_angle arches sb)) - zb * cos (arch_angle arches sb) -> False.
Proof.
  intros HS Hs Hi Hab Hb Hza Hzb Hua Hub EX EW. set (A := arch_angle arches sa) in *. set (B := arch_angle arches sb) in *.
  destruct (half_angle arches HS) as [A0 A1]. pose proof PI_RGT_0 as PP. set (al := PI / INR arches) in *.
  assert (EAL : INR arches * al = PI). { unfold al. field. apply not_0_INR. lia. }
  assert (TA : 0 < tan al) by (apply tan_gt_0; lra).
  assert (SH : forall z u, inner <= z -> Rabs u <= slope arches safety * z -> Rabs u < tan al * z). { intros z u Hz Hu. eapply Rle_lt_trans; [exact Hu|]. apply Rmult_lt_compat_r; [lra|]. unfold slope. fold al. nra. }
  assert (ED : B - A = 2 * al * INR (sb - sa)). { unfold A, B, arch_angle. rewrite minus_INR by lia. unfold al. field. apply not_0_INR. lia. }
  assert (K1 : 1 <= INR (sb - sa)). { replace 1 with (INR 1) by reflexivity. apply le_INR. lia. }
  assert (K2 : INR (sb - sa) <= INR arches - 1). { replace (INR arches - 1) with (INR (arches - 1)) by (rewrite minus_INR by lia; reflexivity). apply le_INR. lia. }
  apply (sector_apart al (B - A) za ua zb ub).
  - lra.
  - rewrite ED. split; nra.
  - lra.
  - apply SH; auto.
  - apply SH; auto.
  - rewrite cos_minus, sin_minus. pose proof (sin2_cos2 B) as SB. unfold Rsqr in SB.
    transitivity (- ((ub * cos B - zb * sin B) * sin B + (- (ub * sin B) - zb * cos B) * cos B)); [transitivity (zb * (sin B * sin B + cos B * cos B)); [rewrite SB; ring|ring]|]. rewrite <- EX, <- EW. ring.
  - rewrite cos_minus, sin_minus. pose proof (sin2_cos2 B) as SB. unfold Rsqr in SB.
    transitivity ((ub * cos B - zb * sin B) * cos B - (- (ub * sin B) - zb * cos B) * sin B); [transitivity (ub * (sin B * sin B + cos B * cos B)); [rewrite SB; ring|ring]|]. rewrite <- EX, <- EW. ring.
Qed.
(** where part k of level lvl begins and where it ends: the arches are nine tenths of the level, the ring is on top of them *)
Definition part_bottom (height : R) (levels arches lvl k : nat) : R := (INR lvl + if Nat.ltb k arches then 0 else 9 / 10) * level_height height levels.
Definition part_top (height : R) (levels arches lvl k : nat) : R := (INR lvl + if Nat.ltb k arches then 9 / 10 else 1) * level_height height levels.
Theorem C147_apart eig sd e fresh r q outer inner height levels arches density mat safety e' names : eig_diagonal eig -> reach eig sd sane_params e -> (2 <= p_resolution (e_params e))%Z ->
  new_names3 e fresh -> exist_material (e_lib e) mat = true -> is_unit q -> 0 < inner -> inner < outer -> (1 <= levels)%nat -> (3 <= arches)%nat -> 0 < safety < 1 -> 0 < density ->
  let w := arch_width inner arches safety in let H := level_height height levels in w / 2 < 9 / 10 * H -> clear_arch w (outer - inner) (PI / 18) ->
  create_colosseum eig sd fresh r q outer inner height levels arches density mat safety e = (Done e', names) ->
  exists parts, names = concat parts /\ length parts = (levels * S arches)%nat /\
    let part lvl k n := (lvl < levels)%nat /\ (k <= arches)%nat /\ exists ns, nth_error parts (lvl * S arches + k) = Some ns /\ In n ns in
    (* where the stones are *)
    (forall lvl k n p, part lvl k n -> occupies e' n p -> let x := in_arch r q p in
       part_bottom height levels arches lvl k <= vy x <= part_top height levels arches lvl k /\ exists z u A, inner <= z <= outer /\ Rabs u <= slope arches safety * z /\ vx x = u * cos A - z * sin A /\ vz x = - (u * sin A) - z * cos A) /\
    (* stones of different parts share at most points of the floor between them *)
    (forall lvl k n lvl' k' n' p, part lvl k n -> part lvl' k' n' -> (lvl, k) <> (lvl', k') -> occupies e' n p -> occupies e' n' p -> let y := vy (in_arch r q p) in
       (y = part_top height levels arches lvl k /\ y = part_bottom height levels arches lvl' k') \/ (y = part_top height levels arches lvl' k' /\ y = part_bottom height levels arches lvl k)) /\
    (* the stones of one part share at most the joints of an arch and of a ring *)
    (forall lvl k, (lvl < levels)%nat -> (k < arches)%nat -> exists ns, nth_error parts (lvl * S arches + k) = Some ns /\
       arch_joints e' ns (at_pose r q (arch_centre outer inner height levels arches lvl k)) (q_prod q (q_Ry (arch_angle arches k))) w (9 / 10 * H) (outer - inner) 5 9) /\
    (forall lvl, (lvl < levels)%nat -> exists ns, nth_error parts (lvl * S arches + arches) = Some ns /\ length ns = arches /\
       forall i j n m p, i <> j -> nth_error ns i = Some n -> nth_error ns j = Some m -> occupies e' n p -> occupies e' m p -> False).
Proof.
  intros HE HR HN HF HM HQ Hi Ho HL HA Hs Hd w H Hw HC HX.
  destruct (calls_ok eig sd fresh r q outer inner height levels arches density mat safety e HE HR HN HF HM HQ Hi Ho HL HA (proj1 Hs) Hw Hd HC) as (e1 & parts & E & _ & _ & _ & ND & LP & _ & GA & GR & F).
  rewrite E in HX. assert (e1 = e') by congruence. assert (concat parts = names) by congruence. subst e1. clear HX E. exists parts. split; [auto|]. split; [exact LP|]. intros part.
  assert (Ps : 0 < slope arches safety) by (apply slope_pos; [auto|lra]).
  assert (Pw : 0 < w). { unfold w, arch_width. assert (0 < slope arches safety * inner) by (apply Rmult_lt_0_compat; auto). lra. } assert (PH : 0 < H) by lra.
  (* the arches, with their angle *)
  assert (IA : forall lvl k n p, (k < arches)%nat -> part lvl k n -> occupies e' n p -> let x := in_arch r q p in INR lvl * H <= vy x <= (INR lvl + 9 / 10) * H /\
     exists z u, inner <= z <= outer /\ Rabs u <= slope arches safety * z /\ vx x = u * cos (arch_angle arches k) - z * sin (arch_angle arches k) /\ vz x = - (u * sin (arch_angle arches k)) - z * cos (arch_angle arches k)).
  { intros lvl k n p Hk (Hl & _ & ns & Hns & Hn) HO x. destruct (GA lvl k Hl Hk) as (ns' & Hns' & (LN & _) & HJ). rewrite Hns in Hns'. apply some_eq in Hns'. subst ns'.
    destruct (arch_box e' ns _ _ w (9 / 10 * H) (outer - inner) 5 9 ltac:(lia) ltac:(lia) Pw Hw LN HJ n p Hn HO) as (X & Y & Z).
    destruct (frame_change r q (arch_angle arches k) ((outer + inner) / 2) (INR lvl * H) p HQ) as (FY & FX & FZ). fold x in FY, FX, FZ.
    fold H in X, Y, Z. unfold arch_centre in X, Y, Z. fold H in X, Y, Z. set (x' := in_arch _ _ p) in X, Y, Z, FY, FX, FZ. 
    split; [lra|]. exists ((outer + inner) / 2 - vz x'), (vx x'). apply abs_between in Z. assert (Z1 : inner <= (outer + inner) / 2 - vz x' <= outer) by lra. split; [exact Z1|].
    split; [|split; assumption]. eapply Rle_trans; [exact X|]. replace (w / 2) with (slope arches safety * inner) by (unfold w, arch_width; field). apply Rmult_le_compat_l; lra. }
  assert (IR : forall lvl n p, part lvl arches n -> occupies e' n p -> let x := in_arch r q p in (INR lvl + 9 / 10) * H <= vy x <= (INR lvl + 1) * H /\
     exists z u A, inner <= z <= outer /\ Rabs u <= slope arches safety * z /\ vx x = u * cos A - z * sin A /\ vz x = - (u * sin A) - z * cos A).
  { intros lvl n p (Hl & _ & ns & Hns & Hn) HO x. destruct (GR lvl Hl) as (ns' & Hns' & (LN & _) & (HJ & _)). rewrite Hns in Hns'. apply some_eq in Hns'. subst ns'.
    apply In_nth_error in Hn as (i & Hn). assert (Li : (i < arches)%nat). { assert (i < length ns)%nat by (apply nth_error_Some; congruence). lia. }
    destruct (HJ 0%nat i n p ltac:(lia) Li Hn HO) as (Y & z & u & Z & U & X & W). fold H in Y, X, W.
    assert (EX : q_rotate (q_conj q) (vsub p (at_pose r q (mkV 0 ((INR lvl + 9 / 10) * H) 0))) = vsub x (mkV 0 ((INR lvl + 9 / 10) * H) 0)).
    { unfold x, in_arch. assert (EP : p = at_pose r q x). { unfold x, in_arch, at_pose. rewrite q_rotate_inv_r by exact HQ. symmetry; apply back. }
      fold (in_arch r q p). fold x. clearbody x. rewrite EP. unfold at_pose. set (y0 := mkV 0 ((INR lvl + 9 / 10) * H) 0). 
      transitivity (q_rotate (q_conj q) (q_rotate q (vsub x y0))); [|apply q_rotate_inv_l; exact HQ]. apply f_equal.
      replace (vsub x y0) with (vadd x (vscale (-1) y0)) by (unfold vsub, vadd, vscale; cbn [vx vy vz]; apply (f_equal3 mkV); ring). rewrite q_rotate_add, q_rotate_scale. unfold vsub, vadd, vscale. cbn [vx vy vz]. apply (f_equal3 mkV); ring. }
    rewrite EX in Y, X, W. unfold vsub in Y, X, W. cbn [vx vy vz INR] in Y, X, W. split.
    - replace (1 / 10 * H / 1) with (1 / 10 * H) in Y by field. lra.
    - exists z, u, (brick_angle arches 0 i). split; [exact Z|]. split; [exact U|]. split; lra. }
  split; [|split; [|split]].
  - intros lvl k n p HP HO x. unfold part_bottom, part_top. fold H. destruct (Nat.ltb_spec k arches) as [Hk|Hk].
    + destruct (IA lvl k n p Hk HP HO) as (Y & z & u & G). fold x in Y, G. split; [lra|]. exists z, u, (arch_angle arches k). exact G.
    + assert (k = arches) by (destruct HP as (_ & HP & _); lia). subst k. exact (IR lvl n p HP HO).
  - intros lvl k n lvl' k' n' p HP HP' NE HO HO' y.
    assert (B : forall l j m, part l j m -> occupies e' m p -> part_bottom height levels arches l j <= y <= part_top height levels arches l j).
    { intros l j m HQ1 HQ2. unfold part_bottom, part_top. fold H. destruct (Nat.ltb_spec j arches) as [Hj|Hj].
      - destruct (IA l j m p Hj HQ1 HQ2) as (Y & _). fold y in Y. lra.
      - assert (j = arches) by (destruct HQ1 as (_ & HQ1 & _); lia). subst j. destruct (IR l m p HQ1 HQ2) as (Y & _). fold y in Y. lra. }
    pose proof (B _ _ _ HP HO) as B1. pose proof (B _ _ _ HP' HO') as B2. clear B.
    assert (ORD : forall l j l' j', (l < l')%nat -> part_top height levels arches l j <= part_bottom height levels arches l' j').
    { intros l j l' j' Hl. unfold part_top, part_bottom. fold H. apply Rmult_le_compat_r; [lra|]. assert (INR l + 1 <= INR l'). { rewrite <- S_INR. apply le_INR. lia. } destruct (Nat.ltb j arches), (Nat.ltb j' arches); lra. }
    destruct (Nat.lt_total lvl lvl') as [L|[L|L]].
    + left. pose proof (ORD lvl k lvl' k' L). lra.
    + subst lvl'. destruct (Nat.lt_ge_cases k arches) as [K|K], (Nat.lt_ge_cases k' arches) as [K'|K'].
      * exfalso. destruct (IA lvl k n p K HP HO) as (_ & z & u & Z & U & X & W). destruct (IA lvl k' n' p K' HP' HO') as (_ & z' & u' & Z' & U' & X' & W').
        rewrite X in X'. rewrite W in W'. destruct (Nat.lt_total k k') as [KK|[KK|KK]]; [|congruence|].
        -- apply (sectors_apart arches safety inner k k' z u z' u'); auto; lra.
        -- apply (sectors_apart arches safety inner k' k z' u' z u); auto; lra.
      * left. unfold part_top, part_bottom in *. fold H in B1, B2 |- *. rewrite (proj2 (Nat.ltb_lt k arches) K), (proj2 (Nat.ltb_ge k' arches) K') in *. lra.
      * right. unfold part_top, part_bottom in *. fold H in B1, B2 |- *. rewrite (proj2 (Nat.ltb_lt k' arches) K'), (proj2 (Nat.ltb_ge k arches) K) in *. lra.
      * exfalso. destruct HP as (_ & HP & _). destruct HP' as (_ & HP' & _). apply NE. f_equal. lia.
    + right. pose proof (ORD lvl' k' lvl k L). lra.
  - intros lvl k Hl Hk. destruct (GA lvl k Hl Hk) as (ns & N1 & _ & N2). exists ns. split; [exact N1|exact N2].
  - intros lvl Hl. destruct (GR lvl Hl) as (ns & N1 & (LN & _) & (_ & N2)). exists ns. split; [exact N1|]. split; [lia|].
    intros i j n m p NE Ni Nj On Om. assert (Li : (i < arches)%nat). { assert (i < length ns)%nat by (apply nth_error_Some; congruence). lia. }
    assert (Lj : (j < arches)%nat). { assert (j < length ns)%nat by (apply nth_error_Some; congruence). lia. }
    assert (NM : n <> m). { intros ->. assert (NDs : NoDup ns). { apply nth_error_In in N1. clear - ND N1. induction parts as [|a l IH]; [destruct N1|]. cbn [concat] in ND. apply nd_parts in ND as [Da Dl]. destruct N1 as [->|N1]; auto. }
      apply NE. apply (proj1 (NoDup_nth_error ns) NDs); [lia|congruence]. }
    destruct (N2 (proj2 Hs) 0%nat i 0%nat j n m p ltac:(lia) Li ltac:(lia) Lj NM Ni Nj On Om) as ([K|K] & _); lia.
Qed.
(** the colosseum can be simulated *)
Theorem C147_simulates eig sd e fresh r q outer inner height levels arches density mat safety e' names time : eig_diagonal eig -> reach eig sd sane_params e -> (2 <= p_resolution (e_params e))%Z ->
  new_names3 e fresh -> exist_material (e_lib e) mat = true -> is_unit q -> 0 < inner -> inner < outer -> (1 <= levels)%nat -> (3 <= arches)%nat -> 0 < safety -> 0 < density ->
  let w := arch_width inner arches safety in let H := level_height height levels in w / 2 < 9 / 10 * H -> clear_arch w (outer - inner) (PI / 18) ->
  set_up e -> big_colosseum outer inner height levels arches safety -> 0 < time -> 0 < p_time_step (e_params e) ->
  create_colosseum eig sd fresh r q outer inner height levels arches density mat safety e = (Done e', names) ->
  exists e2 dts, lsum dts = time /\ exists n, forall fuel, (n <= fuel)%nat -> simulate fuel time e' = SimDone e2 dts.
Proof.
  intros HE HR HN HF HM HQ Hi Ho HL HA Hs Hd w H Hw HC HU HB HT HTS HX.
  destruct (C147_colosseum eig sd e fresh r q outer inner height levels arches density mat safety HE HR HN HF HM HQ Hi Ho HL HA Hs Hd Hw HC) as (e1 & parts & E & R1 & HAd & _ & _ & _ & _ & _ & _ & U).
  rewrite E in HX. assert (e1 = e') by congruence. subst e1. destruct HAd as (_ & _ & _ & _ & _ & _ & EP & _).
  destruct (C84_simulate eig sd e' time R1 (U HU HB) HT) as (e2 & dts & K1 & _ & K2); [rewrite EP; exact HTS|]. exists e2, dts. auto.
Qed.
Definition numbered3 (l k i : nat) : name := [l; k; i].
Lemma angle_10deg : 1 / 6 <= sin (PI / 18) < 1 / 5 /\ 49 / 50 * (49 / 50) * (9995 / 10000) < cos (PI / 18) * cos (PI / 18) /\ 0 < cos (PI / 18) <= 1.
Proof.
  set (s := sin (PI / 18)). set (c := cos (PI / 18)). pose proof PI_RGT_0 as P0. pose proof PI_4 as P4. pose proof (sin2_cos2 (PI / 18)) as SC. unfold Rsqr in SC. fold s c in SC.
  assert (E : 3 * s - 4 * (s * s * s) = 1 / 2).
  { rewrite <- sin_PI6. replace (PI / 6) with (2 * (PI / 18) + PI / 18) by field. rewrite sin_plus, sin_2a, cos_2a_sin. fold s c. transitivity (2 * s * (c * c) + (1 - 2 * s * s) * s); [|ring]. replace (c * c) with (1 - s * s) by lra. ring. }
  assert (S0 : 0 < s) by (apply sin_gt_0; lra). assert (S1 : s < PI / 18) by (apply sin_lt_x; lra). assert (S2 : s < 2 / 9) by lra.
  assert (SQ : 0 < s * s * s) by (repeat apply Rmult_lt_0_compat; auto).
  assert (SU : s < 1 / 5). { destruct (Rlt_le_dec s (1 / 5)) as [L|L]; auto. exfalso. assert (s * s <= 4 / 81) by nra. assert (s * s * s <= 4 / 81 * s) by nra. nra. }
  split; [split; [lra|exact SU]|]. split; [assert (s * s < 1 / 25) by nra; lra|]. split; [apply cos_gt_0; lra|]. apply COS_bound.
Qed.
(** two levels of four arches in a new engine; the key stone of the second arch of the first level *)
Example C147_nonvacuous sd : reach diag_eig sd sane_params create_engine /\ (2 <= p_resolution (e_params create_engine))%Z /\ exist_material (e_lib create_engine) default_name = true /\
  eig_diagonal diag_eig /\ new_names3 create_engine numbered3 /\ set_up create_engine /\ arch_width 10 4 (1 / 2) = 10 /\ level_height 20 2 = 10 /\ clear_arch 10 (20 - 10) (PI / 18) /\
  big_colosseum 20 10 20 2 4 (1 / 2) /\
  exists e' names n, create_colosseum diag_eig sd numbered3 vzero q_identity 20 10 20 2 4 1 default_name (1 / 2) create_engine = (Done e', names) /\ length names = 160%nat /\
    In n names /\ stands e' n (ring_stone 3 5 10 (PI / 18)) (mkV (-15) 4 0) (q_prod (q_Ry (PI / 2)) (q_Rz (PI / 2))).
Proof.
  assert (R0 : reach diag_eig sd sane_params create_engine). { apply reach_new. split; [reflexivity|]. cbn. split; [lia|lra]. }
  assert (HM : exist_material (e_lib create_engine) default_name = true) by reflexivity.
  assert (HP : (2 <= p_resolution (e_params create_engine))%Z) by (cbn; lia).
  assert (UQ : is_unit q_identity) by (unfold is_unit, q_identity, qdot; cbn; ring).
  assert (NN : new_names3 create_engine numbered3). { split; [|cbn; tauto]. intros l k i l' k' i' E. unfold numbered3 in E. injection E. auto. }
  assert (SL : slope 4 (1 / 2) = 1 / 2). { unfold slope. replace (INR 4) with 4 by (cbn; ring). rewrite tan_PI4. ring. }
  assert (EW : arch_width 10 4 (1 / 2) = 10) by (unfold arch_width; rewrite SL; field).
  assert (EH : level_height 20 2 = 10) by (unfold level_height; cbn [INR]; field).
  destruct angle_10deg as ((S0 & S1) & C2 & C0 & C1). set (a := PI / 18) in *. set (s := sin a) in *. set (c := cos a) in *.
  assert (C98 : 9797 / 10000 < c) by nra.
  assert (RV : ring_volume 10 (20 - 10) a = 160 * (s * c)) by (unfold ring_volume; fold s c; field).
  assert (SC : 16 / 100 < s * c) by nra.
  assert (CA : clear_arch 10 (20 - 10) a).
  { unfold clear_arch. rewrite RV. unfold ring_offset, tiny. fold c. split; [lra|]. split; [|lra]. right. rewrite Rabs_pos_eq; lra. }
  split; [exact R0|]. split; [exact HP|]. split; [exact HM|]. split; [exact diag_eig_diagonal|]. split; [exact NN|].
  split; [split; [|split]; cbn; tauto|]. split; [exact EW|]. split; [exact EH|]. split; [exact CA|]. split.
  { unfold big_colosseum. rewrite EW, EH, SL. fold a. split.
    - split; [unfold big_box, tiny; repeat split; lra|]. assert (PS : 0 < s) by lra. split; [apply clear_wedge_arch; [lra|exact PS|exact C0|exact CA]|].
      destruct (wedge_facts 10 (20 - 10) a) as (_ & _ & _ & EV & _); [lra|exact PS|exact C0|]. rewrite EV, RV. fold s c. unfold wedge_sq, tiny.
      set (x0 := 3 / 10 * 10 * c - 2 / 5 * 10). set (x1 := 1 / 2 * 10 * c - 2 / 5 * 10).
      set (s0 := (x0 * x0 * _ + _ + _) / _). assert (W : 0 < 3 / 10 * 10 * s + 1 / 2 * 10 * s) by lra.
      assert (S0' : 0 <= s0). { replace s0 with ((7 / 2 * (x0 * x0) + 4 * (x0 * x1) + 9 / 2 * (x1 * x1)) / 12) by (unfold s0; clearbody x0 x1; field; lra). clearbody x0 x1. nra. } clearbody s0 x0 x1.
      assert (T : forall u, 1 / 10 <= u -> 1 / 10000000000 < 160 * (s * c) * u) by (intros u Hu; nra).
      assert (SS : 1 / 36 <= s * s) by nra. split; [apply T; nra|]. split; apply T; nra.
    - unfold big_brick, big_trap, tiny. cbv zeta. repeat split; try lra. right. rewrite Rabs_left; lra. }
  destruct (C147_colosseum diag_eig sd create_engine numbered3 vzero q_identity 20 10 20 2 4 1 default_name (1 / 2) diag_eig_diagonal R0 HP NN HM UQ ltac:(lra) ltac:(lra) ltac:(lia) ltac:(lia) ltac:(lra) ltac:(lra)
    ltac:(rewrite EW, EH; lra) ltac:(rewrite EW; exact CA)) as (e' & parts & E & _ & _ & _ & _ & LN & _ & HAr & _ & _).
  destruct (HAr 0%nat 1%nat ltac:(lia) ltac:(lia)) as (ns & Hns & _ & _ & HRi). rewrite EW, EH in HRi. destruct (HRi 4%nat ltac:(lia)) as (n & Hn & HSt & _).
  exists e', (concat parts), n. split; [exact E|]. split; [exact LN|]. split. { apply in_concat. exists ns. split; eapply nth_error_In; eauto. }
  assert (EA : PI / (2 * IZR 9) = a) by (unfold a; field). rewrite EA in HSt.
  assert (EG : arch_angle 4 1 = PI / 2) by (unfold arch_angle; cbn [INR]; field). rewrite EG, q_prod_id_l in HSt.
  replace ((2 * INR 4 + 1) * a) with (PI / 2) in HSt by (unfold a; cbn [INR]; field).
  replace (3 / 10 * 10) with 3 in HSt by field. replace (1 / 2 * 10) with 5 in HSt by field. replace (20 - 10) with 10 in HSt by ring.
  replace (mkV (-15) 4 0) with (at_pose (at_pose vzero q_identity (arch_centre 20 10 20 2 4 0 1)) (q_Ry (PI / 2)) (mkV 0 (9 / 10 * 10 - 10 / 2) 0)); [exact HSt|].
  unfold at_pose, arch_centre. rewrite EG, EH, sin_PI2, cos_PI2, q_rotate_id, Ry_rotate, sin_PI2, cos_PI2. unfold vadd, vzero. cbn [vx vy vz INR]. apply (f_equal3 mkV); field.
Qed.
Print Assumptions C147_colosseum.
Print Assumptions C147_rejects.
Print Assumptions C147_apart.
Print Assumptions C147_simulates.
Print Assumptions C147_nonvacuous.
