(** C157: objects above a grid of poles. *)
From Verif Require Import Base QuatModel QuatProofs VecModel VecProofs BvhModel BvhSpec GridModel VolModel RigidTypes RigidSpec CollModel BaryModel MassModel MassSpec MassProofs MassProofs2 Prop_Mass
  StepModel StepProofs StepProofs2 ReadySpec ReadyProofs ConSpec ApiModel ApiSpec ApiProofs RotModel RotProofs QuatMatProofs Prop_Rotation Prop_Api Prop_Api2
  SurfModel SurfSpec SurfProofs Prop_Surface Prop_Sweep SceneModel SceneSpec SceneMesh SceneProofs SceneShape SceneBox SceneConical SceneCylinder ScenePlace Prop_Scene Prop_SceneLattice Prop_SceneTower Prop_SceneColosseum
  Prop_ScenePillar Prop_SceneSandbox PolesModel.
From Coq Require Import Permutation.
Open Scope R_scope.

(** ** what is built *)
(** the body n is a fixed, upright cylinder of twelve sides that stands on the ground with its axis through (x, z) *)
Definition pole_at (e : engine) (n : name) (mat : name) (density radius height x z : R) : Prop :=
  (exists VT, create_cylinder radius height 12 1 = Some VT /\ stands e n VT (mkV x (height / 2) z) q_identity) /\
  exists m, pos_up_to_clamp (3 * (radius * radius) * height) m /\ at_rest e n true mat (m * density).
(** where the axes of the poles are *)
Definition pole_x (w radius : R) (Ip i : nat) : R := - w / 2 + radius + INR i * (w / INR Ip).
(** the poles are large enough for the mass and the moments of inertia to be kept *)
Definition big_pole (radius height : R) : Prop :=
  tiny < 3 * (radius * radius) * height /\
  let across := (4 + sqrt 3) / 8 * height * (radius * radius * (radius * radius)) in let axial := radius * radius * (height * height * height) / 4 in
  tiny < across + axial /\ tiny < across + across.

(** ** one pole after another *)
Lemma poles_ok eig sd mat density s sn : forall l e, reach eig sd sane_params e -> find_shape e sn = Some s -> exist_material (e_lib e) mat = true ->
  (forall x, In x l -> it_shape x = sn) -> NoDup (map it_name l) -> (forall x, In x l -> ~ In (it_name x) (map b_name (e_bodies e))) ->
  exists bs, each (pole mat density) l e = Done (set_bodies e (e_bodies e ++ bs)) /\ reach eig sd sane_params (set_bodies e (e_bodies e ++ bs)) /\ Forall2 (built e true mat density) l bs.
Proof.
  induction l as [|[[[bn sn'] r] q] l IH]; intros e HR FS HM HS ND NI.
  - exists []. cbn [each]. rewrite app_nil_r. destruct e. cbn. split; [reflexivity|]. split; [exact HR|constructor].
  - assert (sn' = sn) by (apply (HS (bn, sn', r, q)); left; reflexivity). subst sn'.
    assert (NB : ~ In bn (map b_name (e_bodies e))) by (apply (NI (bn, sn, r, q)); left; reflexivity).
    assert (HB : find_body e bn = None). { unfold find_body. destruct (find _ (e_bodies e)) as [b|] eqn:E; auto. exfalso. apply (find_some b_name) in E as [H1 H2]. apply NB. rewrite <- H2. apply in_map. exact H1. }
    destruct (place_ok eig sd e bn sn r q s HR HB FS) as (t & EP). set (b := stone s t (length (e_bodies e)) bn r q) in *.
    assert (M1 : has_mid (set_bodies e (e_bodies e ++ [b])) (e_bodies e) b [] bn). { split; [reflexivity|]. split; [exact NB|]. split; [auto|reflexivity]. }
    assert (M1' := finish_ok _ _ _ _ _ true mat density s M1 eq_refl HM). cbn [type_name] in M1'. rewrite set_bodies_twice in M1'.
    set (fb := finished s true mat density b) in *. set (e1 := set_bodies e (e_bodies e ++ [fb])) in *.
    assert (R1 : reach eig sd sane_params e1). { eapply finish_reach; [|exact M1']. eapply place_reach; [exact HR|exact EP]. }
    cbn [map it_name fst] in ND. inversion ND as [|x0 l0 ND1 ND2]. subst x0 l0.
    destruct (IH e1 R1 FS HM) as (bs & EE & RR & FF).
    { intros x Hx. apply HS. right. exact Hx. }
    { exact ND2. }
    { intros x Hx. cbn [e1 set_bodies e_bodies]. rewrite map_app, in_app_iff. intros [C|[C|[]]]; [exact (NI x (or_intror Hx) C)|]. apply ND1. change (b_name fb) with bn in C. rewrite C. apply in_map. exact Hx. }
    assert (EQ : set_bodies e1 (e_bodies e1 ++ bs) = set_bodies e (e_bodies e ++ fb :: bs)). { cbn [e1 set_bodies e_bodies]. rewrite <- app_assoc. reflexivity. }
    rewrite EQ in EE, RR. exists (fb :: bs). split; [cbn [each]; unfold pole at 1; rewrite EP; cbn [andthen]; change (finish bn fixed_name mat density (set_bodies e (e_bodies e ++ [b]))) with (finish bn (type_name true) mat density (set_bodies e (e_bodies e ++ [b]))); cbn [type_name]; rewrite M1'; cbn [andthen]; exact EE|].
    split; [exact RR|]. constructor; [exists s, t, (length (e_bodies e)); split; [exact FS|reflexivity]|]. exact FF.
Qed.
Lemma pole_good radius height : 0 < radius -> 0 < height -> exists VT, create_cylinder radius height 12 1 = Some VT /\ good_stone (fst VT) (snd VT) /\ volume (fst VT) (snd VT) = 3 * (radius * radius) * height.
Proof.
  intros H0 H1. exists (cylV radius height 12, cylT 12). split; [apply cyl_eq; lia|]. cbn [fst snd]. split; [apply cyl_good; auto; lia|]. rewrite cyl_volume by lia. rewrite twelve. reflexivity.
Qed.
Lemma pole_counted radius height VT : 0 < radius -> 0 < height -> create_cylinder radius height 12 1 = Some VT -> big_pole radius height -> counted_stone (fst VT) (snd VT).
Proof.
  intros H0 H1 E (B0 & B1 & B2). rewrite cyl_eq in E by lia. apply some_eq in E. subst VT. cbn [fst snd]. apply cyl_counted; auto; [lia|]. unfold big_cylinder. cbv zeta in *. rewrite twelve, twelve_inertia.
  split; [exact B0|]. split; lra.
Qed.

Theorem C157_poles eig sd e fresh rnd shapes height radius Ip Kp w h d I J K density mat random : eig_diagonal eig -> reach eig sd sane_params e -> (2 <= p_resolution (e_params e))%Z ->
  new_names e fresh -> exist_material (e_lib e) mat = true -> 0 < height -> 0 < radius -> (0 < Ip)%nat -> (0 < Kp)%nat -> (0 < I)%nat -> (0 < J)%nat -> (0 < K)%nat ->
  shapes <> [] -> (forall sn, In sn shapes -> In sn (map sh_name (e_shapes e))) ->
  exists e' falling poles,
    create_poles eig sd fresh rnd shapes height radius Ip Kp w h d I J K density mat random e = (Done e', falling ++ poles) /\ reach eig sd sane_params e' /\
    adds e e' (falling ++ poles) /\ e_hinges e' = e_hinges e /\ NoDup (falling ++ poles) /\
    length poles = (Ip * Kp)%nat /\
    (forall i k, (i < Ip)%nat -> (k < Kp)%nat -> exists n, nth_error poles (i * Kp + k)%nat = Some n /\ pole_at e' n mat density radius height (pole_x w radius Ip i) (pole_x d radius Kp k)) /\
    length falling = (I * J * K)%nat /\
    (forall i j k, (i < I)%nat -> (j < J)%nat -> (k < K)%nat -> let m := ((i * J + j) * K + k)%nat in exists n b sn s, nth_error falling m = Some n /\ find_body e' n = Some b /\
       nth_error shapes ((i + j + k) mod length shapes) = Some sn /\ find_shape e sn = Some s /\ b_shape b = Some s /\
       b_r b = mkV (- w / 2 + (INR i + 1 / 2) * (w / INR I)) (2 * height + (INR j + 1 / 2) * (h / INR J)) (- d / 2 + (INR k + 1 / 2) * (d / INR K)) /\
       b_q b = q_unit (if random then rnd m else q_identity) /\ at_rest e' n false mat (sh_mass s * density)) /\
    (set_up e -> density <> 0 -> (forall sn s, In sn shapes -> find_shape e sn = Some s -> corner_nonzero s /\ sh_mass s <> 0 /\ vx (sh_inertia s) <> 0 /\ vy (sh_inertia s) <> 0 /\ vz (sh_inertia s) <> 0) ->
       big_pole radius height -> set_up e').
Proof.
  intros HE HR HN HNN HM Hh Hr HIp HKp HI HJ HK HS HSH. pose proof HNN as (HI1 & HF).
  destruct (C141_lattice eig sd e fresh rnd (mkV (- w / 2) (2 * height) (- d / 2)) q_identity shapes w h d I J K density mat random None HR HNN HM HI HJ HK HS HSH) as (e1 & gr & E1 & R1 & A1 & H1 & S1 & LG & NG & HG & U1).
  set (fresh' := fun i => fresh (I * J * K + i)%nat).
  assert (EG : gr = map fresh (seq 0 (I * J * K))).
  { unfold create_lattice in E1. destruct (Nat.eqb I 0 || Nat.eqb J 0 || Nat.eqb K 0 || Nat.eqb (length shapes) 0); [discriminate|]. apply (f_equal snd) in E1. symmetry. exact E1. }
  assert (HI2 : forall i j, fresh' i = fresh' j -> i = j) by (intros i j H; apply HI1 in H; lia).
  pose proof A1 as (A1a & A1b & A1c & _ & _ & A1d & A1e & _).
  assert (NB : forall i, ~ In (fresh' i) (map b_name (e_bodies e1))).
  { intros i. rewrite A1a, in_app_iff. intros [C|C]; [exact (proj1 (HF _) C)|]. rewrite EG in C. apply in_map_iff in C as (k & Ek & Hk). apply in_seq in Hk. unfold fresh' in Ek. apply HI1 in Ek. lia. }
  destruct (pole_good radius height Hr Hh) as ([V T] & EC & GS & VOL). cbn [fst snd] in GS, VOL.
  assert (HN1 : (2 <= p_resolution (e_params e1))%Z) by (rewrite A1e; exact HN).
  assert (NS : ~ In (fresh' 0%nat) (map sh_name (e_shapes e1))) by (rewrite S1; apply HF).
  destruct (make_one_shape eig sd e1 (fresh' 0%nat) V T HE R1 HN1 NS GS) as (s & ES & R2 & EN & FS & IS).
  set (e2 := set_shapes e1 (e_shapes e1 ++ [s])) in *.
  set (l := pole_items fresh' height radius w d Ip Kp).
  assert (EM : map it_name l = map (fun m => fresh' (S m)) (seq 0 (Ip * Kp))).
  { unfold l, pole_items. rewrite map_map. rewrite (number_map _ (fun m => fresh' (S m))); [rewrite grid_length; reflexivity|]. intros m [i k]. reflexivity. }
  assert (SH : forall x, In x l -> it_shape x = fresh' 0%nat). { intros x Hx. apply in_map_iff in Hx as ([m [i k]] & <- & _). reflexivity. }
  assert (NI : forall x, In x l -> ~ In (it_name x) (map b_name (e_bodies e1))). { intros x Hx. apply in_map_iff in Hx as ([m [i k]] & <- & _). apply NB. }
  assert (ND : NoDup (map it_name l)). { rewrite EM. apply FinFun.Injective_map_NoDup; [|apply seq_NoDup]. intros a b H. apply HI2 in H. lia. }
  assert (HM2 : exist_material (e_lib e2) mat = true) by (cbn [e2 set_shapes e_lib]; rewrite A1d; exact HM).
  destruct (poles_ok eig sd mat density s (fresh' 0%nat) l e2 R2 FS HM2 SH ND NI) as (bs & EE & R3 & FB).
  change (e_bodies e2) with (e_bodies e1) in *. set (mesh := fun _ : name => (V, T)).
  destruct (builder_result eig sd e1 [s] true mat density mesh l bs R3 NI FB) as (HA & HH & HST & HU).
  { intros x s' Hx Hs'. rewrite (SH x Hx) in Hs'. fold e2 in Hs'. rewrite FS in Hs'. apply some_eq in Hs'. subst s'. exact IS. }
  fold e2 in HA, HH, HST, HU. set (e' := set_bodies e2 (e_bodies e1 ++ bs)) in *.
  pose proof (adds_trans _ _ _ _ _ A1 HA) as AA.
  exists e', gr, (map it_name l).
  split. { unfold create_poles. rewrite E1. cbv zeta. fold fresh'. fold l. apply f_equal2; [|apply f_equal; apply map_ext; intros [[[x1 x2] x3] x4]; reflexivity]. cbn [andthen]. rewrite EC. cbv beta iota. change (fresh (I * J * K + 0)%nat) with (fresh' 0%nat). rewrite ES. cbn [andthen].
    destruct (Nat.eqb_spec Ip 0); [lia|]. destruct (Nat.eqb_spec Kp 0); [lia|]. cbn [orb]. exact EE. }
  split; [exact R3|]. split; [exact AA|]. split; [congruence|].
  split. { pose proof (reach_names _ _ _ _ R3) as ND3. destruct AA as (AA & _). rewrite AA in ND3. exact (nodup_right _ _ ND3). }
  split; [rewrite EM, map_length, seq_length; reflexivity|]. split; [|split; [exact LG|split]].
  - intros i k Hi Hk. set (m := (i * Kp + k)%nat). exists (fresh' (S m)). assert (LT : (m < Ip * Kp)%nat) by (unfold m; nia).
    split; [rewrite EM, nth_error_map, seq_nth_error by exact LT; reflexivity|].
    set (x := (fresh' (S m), fresh' 0%nat, vadd (q_rotate q_identity (pole_place height radius w d Ip Kp i k)) (mkV 0 0 0), q_prod q_identity q_identity) : item).
    assert (HX : In x l). { unfold l, pole_items. apply in_map_iff. exists (m, (i, k)). split; [reflexivity|]. eapply nth_error_In. apply number_nth. apply grid_nth; auto. }
    destruct (HST _ HX) as [P1 P2]. cbn [x it_name it_shape it_r it_q mesh fst snd] in P1, P2.
    assert (EP : vadd (q_rotate q_identity (pole_place height radius w d Ip Kp i k)) (mkV 0 0 0) = mkV (pole_x w radius Ip i) (height / 2) (pole_x d radius Kp k)).
    { rewrite q_rotate_id. unfold pole_place, pole_x, vadd. cbn [vx vy vz]. apply (f_equal3 mkV); ring. }
    rewrite EP, q_prod_id_r in P1. rewrite VOL in P2. split; [exists (V, T); split; [exact EC|]; apply P1; unfold is_unit, q_identity, qdot; cbn; ring|exact P2].
  - intros i j k Hi Hj Hk m. destruct (HG i j k Hi Hj Hk) as (n & b & sn & s0 & G1 & G2 & G3 & G4 & G5 & G6 & G7 & G8). exists n, b, sn, s0.
    assert (FBn : find_body e' n = find_body e1 n). { destruct HA as (_ & HA & _). apply HA. rewrite A1a. apply in_or_app. right. eapply nth_error_In. exact G1. }
    split; [exact G1|]. split; [congruence|]. split; [exact G3|]. split; [exact G4|]. split; [exact G5|]. split; [|split; [|exact (rest_keep _ _ _ _ _ _ FBn G8)]].
    + rewrite G6. unfold at_pose. rewrite q_rotate_id. unfold cell_centre, vadd. cbn [vx vy vz]. apply (f_equal3 mkV); field; apply not_0_INR; lia.
    + rewrite G7. fold m. rewrite q_prod_id_l. reflexivity.
  - intros U D HC B. apply HU; auto. intros x _. exact (pole_counted radius height (V, T) Hr Hh EC B).
Qed.

(** ** where the poles are *)
Lemma cyl_round rr hh J v c s : In v (cylV rr hh J) -> 0 < rr -> c * c + s * s = 1 -> c * vx v + s * vz v <= rr.
Proof.
  intros Hv Hr Q. assert (G : forall t y, c * vx (turn t (mkV rr y 0)) + s * vz (turn t (mkV rr y 0)) <= rr).
  { intros t y. unfold turn, rot. cbn [vx vy vz]. pose proof (sin2_cos2 t) as P. unfold Rsqr in P. revert P. generalize (cos t) (sin t). intros C S P.
    assert (E : (c * C - s * S) * (c * C - s * S) + (c * S + s * C) * (c * S + s * C) = 1) by (replace 1 with ((c * c + s * s) * (S * S + C * C)) by (rewrite Q, P; ring); ring).
    assert (L : c * C - s * S <= 1). { revert E. generalize (c * C - s * S) (c * S + s * C). intros U W E. nra. }
    replace (c * (C * rr + S * 0) + s * (- S * rr + C * 0)) with ((c * C - s * S) * rr) by ring. revert L. generalize (c * C - s * S). intros U L. nra. }
  rewrite cylV_eq in Hv. apply in_app_or in Hv. destruct Hv as [Hv|[<-|[<-|[]]]]; [|cbn; lra|cbn; lra].
  apply in_flat_map in Hv as (j & _ & [<-|[<-|[]]]); apply G.
Qed.
(** every point of a pole is above the ground, not above its height, and not farther than its radius from its axis; the ends of its axis belong to it *)
Theorem C157_extent e n mat density radius height x z : 0 < radius -> 0 < height -> pole_at e n mat density radius height x z ->
  (forall p, occupies e n p -> 0 <= vy p <= height /\ (vx p - x) * (vx p - x) + (vz p - z) * (vz p - z) <= radius * radius) /\
  occupies e n (mkV x 0 z) /\ occupies e n (mkV x height z).
Proof.
  intros Hr Hh ((VT & E & S) & _). rewrite cyl_eq in E by lia. apply some_eq in E. subst VT. assert (UQ : is_unit q_identity) by (unfold is_unit, q_identity, qdot; cbn; ring).
  split.
  - intros p HO. destruct (stands_inside _ _ _ _ _ _ UQ S HO) as (v & -> & Hv). cbn [fst] in Hv. unfold at_pose. rewrite q_rotate_id. unfold vadd. cbn [vx vy vz].
    assert (Y1 : vdot (mkV 0 1 0) v <= height / 2). { apply Hv. intros u Hu. apply cyl_between in Hu; auto. unfold vdot. cbn [vx vy vz]. lra. }
    assert (Y2 : vdot (mkV 0 (-1) 0) v <= height / 2). { apply Hv. intros u Hu. apply cyl_between in Hu; auto. unfold vdot. cbn [vx vy vz]. lra. }
    unfold vdot in Y1, Y2. cbn [vx vy vz] in Y1, Y2. split; [lra|].
    replace ((vx v + x - x) * (vx v + x - x) + (vz v + z - z) * (vz v + z - z)) with (vx v * vx v + vz v * vz v) by ring.
    set (m := vx v * vx v + vz v * vz v). destruct (Rle_dec m 0) as [M|M]; [nra|]. assert (P : 0 < sqrt m) by (apply sqrt_lt_R0; lra).
    assert (SQ : sqrt m * sqrt m = m) by (apply sqrt_sqrt; lra).
    assert (R : vdot (mkV (vx v / sqrt m) 0 (vz v / sqrt m)) v <= radius).
    { apply Hv. intros u Hu. unfold vdot. cbn [vx vy vz]. pose proof (cyl_round radius height 12 u (vx v / sqrt m) (vz v / sqrt m) Hu Hr) as L.
      assert (Q : vx v / sqrt m * (vx v / sqrt m) + vz v / sqrt m * (vz v / sqrt m) = 1). { replace (vx v / sqrt m * (vx v / sqrt m) + vz v / sqrt m * (vz v / sqrt m)) with (m / (sqrt m * sqrt m)) by (unfold m at 1; field; lra). rewrite SQ. field. lra. }
      specialize (L Q). lra. }
    unfold vdot in R. cbn [vx vy vz] in R. replace (vx v / sqrt m * vx v + 0 * vy v + vz v / sqrt m * vz v) with (m / sqrt m) in R by (unfold m at 1; field; lra).
    assert (R2 : sqrt m <= radius). { replace (sqrt m) with (m / sqrt m); [exact R|]. rewrite <- SQ at 1. field. lra. } nra.
  - assert (G : forall y, In (mkV 0 y 0) (cylV radius height 12) -> occupies e n (mkV x (y + height / 2) z)).
    { intros y Hy. apply (stands_occupies _ _ _ _ _ _ S). cbn [fst]. intros u c Hu. replace (mkV x (y + height / 2) z) with (at_pose (mkV x (height / 2) z) q_identity (mkV 0 y 0)); [apply Hu; apply in_map; exact Hy|].
      unfold at_pose. rewrite q_rotate_id. unfold vadd. cbn [vx vy vz]. f_equal; ring. }
    assert (IB : In (mkV 0 (- height / 2) 0) (cylV radius height 12)) by (rewrite cylV_eq; apply in_or_app; right; right; left; reflexivity).
    assert (IT : In (mkV 0 (height / 2) 0) (cylV radius height 12)) by (rewrite cylV_eq; apply in_or_app; right; left; reflexivity).
    apply G in IB, IT. replace (- height / 2 + height / 2) with 0 in IB by field. replace (height / 2 + height / 2) with height in IT by field. auto.
Qed.
(** two poles have no common point when there is more than the diameter of a pole between their axes *)
Theorem C157_apart e n m mat density radius height w d Ip Kp i k i' k' p : 0 < radius -> 0 < height -> (0 < Ip)%nat -> (0 < Kp)%nat -> 2 * radius < w / INR Ip -> 2 * radius < d / INR Kp ->
  (i, k) <> (i', k') -> pole_at e n mat density radius height (pole_x w radius Ip i) (pole_x d radius Kp k) -> pole_at e m mat density radius height (pole_x w radius Ip i') (pole_x d radius Kp k') ->
  occupies e n p -> occupies e m p -> False.
Proof.
  intros Hr Hh HIp HKp HW HD NE P1 P2 O1 O2. apply C157_extent in P1 as [P1 _]; auto. apply C157_extent in P2 as [P2 _]; auto. apply P1 in O1 as [_ O1]. apply P2 in O2 as [_ O2]. clear P1 P2.
  assert (G : forall t a b c, 2 * radius < t -> a <> b -> Rabs (c + INR a * t) <= radius -> Rabs (c + INR b * t) <= radius -> False).
  { intros t a b c Ht Hab A B. assert (S : INR a + 1 <= INR b \/ INR b + 1 <= INR a). { rewrite <- !S_INR. destruct (Nat.lt_total a b) as [L|[L|L]]; [left|congruence|right]; apply le_INR; lia. }
    apply abs_le in A, B. destruct S as [S|S]; nra. }
  assert (SQ : forall x y, x * x + y * y <= radius * radius -> Rabs x <= radius /\ Rabs y <= radius). { intros x y H. split; apply abs_le; nra. }
  apply SQ in O1 as [A1 B1]. apply SQ in O2 as [A2 B2]. unfold pole_x in *.
  assert (F : forall v t wx a, Rabs (v - (- wx / 2 + radius + INR a * t)) <= radius -> Rabs ((- wx / 2 + radius - v) + INR a * t) <= radius). { intros v t wx a H. rewrite <- Rabs_Ropp. replace (- (- wx / 2 + radius - v + INR a * t)) with (v - (- wx / 2 + radius + INR a * t)) by ring. exact H. }
  destruct (Nat.eq_dec i i') as [<-|D].
  - assert (NK : k <> k') by (intros ->; apply NE; reflexivity). apply (G (d / INR Kp) k k' (- d / 2 + radius - vz p)); auto.
  - apply (G (w / INR Ip) i i' (- w / 2 + radius - vx p)); auto.
Qed.

(** ** it can be simulated *)
Theorem C157_simulates eig sd e fresh rnd shapes height radius Ip Kp w h d I J K density mat random e' names time : eig_diagonal eig -> reach eig sd sane_params e -> (2 <= p_resolution (e_params e))%Z ->
  new_names e fresh -> exist_material (e_lib e) mat = true -> 0 < height -> 0 < radius -> (0 < Ip)%nat -> (0 < Kp)%nat -> (0 < I)%nat -> (0 < J)%nat -> (0 < K)%nat ->
  shapes <> [] -> (forall sn, In sn shapes -> In sn (map sh_name (e_shapes e))) ->
  set_up e -> density <> 0 -> (forall sn s, In sn shapes -> find_shape e sn = Some s -> corner_nonzero s /\ sh_mass s <> 0 /\ vx (sh_inertia s) <> 0 /\ vy (sh_inertia s) <> 0 /\ vz (sh_inertia s) <> 0) ->
  big_pole radius height -> 0 < time -> 0 < p_time_step (e_params e) ->
  create_poles eig sd fresh rnd shapes height radius Ip Kp w h d I J K density mat random e = (Done e', names) ->
  exists e2 dts, lsum dts = time /\ exists n, forall fuel, (n <= fuel)%nat -> simulate fuel time e' = SimDone e2 dts.
Proof.
  intros HE HR HN HNN HM Hh Hr HIp HKp HI HJ HK HS HSH HU HD HC HB HT HTS H.
  destruct (C157_poles eig sd e fresh rnd shapes height radius Ip Kp w h d I J K density mat random HE HR HN HNN HM Hh Hr HIp HKp HI HJ HK HS HSH) as (e1 & gr & po & E & R1 & HA & _ & _ & _ & _ & _ & _ & U).
  rewrite E in H. assert (e1 = e') by congruence. subst e1. destruct HA as (_ & _ & _ & _ & _ & _ & EP & _).
  destruct (C84_simulate eig sd e' time R1 (U HU HD HC HB) HT) as (e2 & dts & K1 & _ & K2); [rewrite EP; exact HTS|]. exists e2, dts. auto.
Qed.
(** without objects, shapes or poles it raises *)
Theorem C157_none eig sd fresh rnd shapes height radius Ip Kp w h d I J K density mat random e e' : shapes = [] \/ I = 0%nat \/ J = 0%nat \/ K = 0%nat \/ Ip = 0%nat \/ Kp = 0%nat ->
  fst (create_poles eig sd fresh rnd shapes height radius Ip Kp w h d I J K density mat random e) <> Done e'.
Proof.
  intros H. unfold create_poles. destruct (create_lattice _ _ _ _ _ _ _ _ _ _ _ _ _ _ _ e) as [o gr] eqn:EL. cbv zeta. cbn [fst]. intros X. apply SceneProofs.andthen_done in X as (e1 & X1 & X2).
  destruct H as [H|[H|[H|[H|H]]]].
  1-4: unfold create_lattice in EL; assert (B : Nat.eqb I 0 || Nat.eqb J 0 || Nat.eqb K 0 || Nat.eqb (length shapes) 0 = true) by (rewrite H; cbn; rewrite ?orb_true_r; reflexivity); rewrite B in EL; assert (o = Raised e) by congruence; congruence.
  destruct (create_cylinder radius height 12 1) as [VT|]; [|discriminate]. apply SceneProofs.andthen_done in X2 as (e2 & _ & X3). assert (B : Nat.eqb Ip 0 || Nat.eqb Kp 0 = true) by (destruct H as [->| ->]; cbn; rewrite ?orb_true_r; reflexivity). rewrite B in X3. discriminate.
Qed.

(** six poles of radius 1 and height 4 below eight boxes of size 2 *)
Example C157_nonvacuous sd rnd : exists e s, reach diag_eig sd sane_params e /\ new_names e (fun i => [S i]) /\ find_shape e [0]%nat = Some s /\ set_up e /\ 0 < p_time_step (e_params e) /\
  (corner_nonzero s /\ sh_mass s <> 0 /\ vx (sh_inertia s) <> 0 /\ vy (sh_inertia s) <> 0 /\ vz (sh_inertia s) <> 0) /\ big_pole 1 4 /\ 2 * 1 < 10 / INR 3 /\ 2 * 1 < 10 / INR 2 /\
  exists e' falling poles, create_poles diag_eig sd (fun i => [S i]) rnd [[0]%nat] 4 1 3 2 10 10 10 2 2 2 3 default_name true e = (Done e', falling ++ poles) /\ length falling = 8%nat /\
    exists n, nth_error poles 5 = Some n /\ pole_at e' n default_name 3 1 4 (8 / 3) 1 /\ at_rest e' n true default_name 36 /\ occupies e' n (mkV (8 / 3) 4 1).
Proof.
  assert (R0 : reach diag_eig sd sane_params create_engine). { apply reach_new. split; [reflexivity|]. cbn. split; [lia|lra]. }
  destruct (make_one_shape diag_eig sd create_engine [0]%nat (boxV 2 2 2) (boxT 2 2 2) diag_eig_diagonal R0 ltac:(cbn; lia) ltac:(cbn; tauto) (box_good 2 2 2 ltac:(lra) ltac:(lra) ltac:(lra))) as (s & _ & R1 & EN & FS & IS).
  set (e := set_shapes create_engine (e_shapes create_engine ++ [s])) in *. exists e, s.
  assert (NN : new_names e (fun i => [S i])). { split; [intros i j H; injection H; auto|]. intros i. cbn. split; [tauto|]. intros [H|[]]. rewrite EN in H. discriminate. }
  assert (SU : set_up e) by (split; [|split]; cbn; tauto).
  assert (B2 : big_box 2 2 2) by (unfold big_box, tiny; repeat split; lra).
  destruct IS as (_ & (PM & _) & _ & IC). rewrite box_volume in PM. apply pos_clamp_val in PM; [|unfold tiny; lra].
  destruct (IC (box_counted 2 2 2 ltac:(lra) ltac:(lra) ltac:(lra) B2)) as (C0 & C1 & C2 & C3).
  split; [exact R1|]. split; [exact NN|]. split; [exact FS|]. split; [exact SU|]. split; [cbn; lra|].
  split; [split; [exact C0|]; split; [lra|]; split; [lra|]; split; lra|].
  split; [pose proof (sqrt_pos 3); unfold big_pole, tiny; cbv zeta; repeat split; lra|]. split; [cbn [INR]; lra|]. split; [cbn [INR]; lra|].
  assert (HSH : forall sn, In sn [[0]%nat] -> In sn (map sh_name (e_shapes e))) by (intros sn [<-|[]]; cbn; left; exact EN).
  destruct (C157_poles diag_eig sd e (fun i => [S i]) rnd [[0]%nat] 4 1 3 2 10 10 10 2 2 2 3 default_name true diag_eig_diagonal R1 ltac:(cbn; lia) NN eq_refl ltac:(lra) ltac:(lra) ltac:(lia) ltac:(lia) ltac:(lia) ltac:(lia) ltac:(lia) ltac:(discriminate) HSH)
    as (e' & gr & po & E & _ & _ & _ & _ & _ & HP & LG & _).
  exists e', gr, po. split; [exact E|]. split; [exact LG|]. destruct (HP 2%nat 1%nat ltac:(lia) ltac:(lia)) as (n & N1 & N2). exists n. split; [exact N1|].
  assert (EX : pole_x 10 1 3 2 = 8 / 3) by (unfold pole_x; cbn [INR]; field). assert (EZ : pole_x 10 1 2 1 = 1) by (unfold pole_x; cbn [INR]; field). rewrite EX, EZ in N2. split; [exact N2|].
  assert (P1 : 0 < 1) by lra. assert (P4 : 0 < 4) by lra. destruct (C157_extent _ _ _ _ _ _ _ _ P1 P4 N2) as (_ & _ & TOP). split; [|exact TOP].
  destruct N2 as (_ & m & M & A). apply pos_clamp_val in M; [|unfold tiny; lra]. replace 36 with (m * 3) by (rewrite M; lra). exact A.
Qed.
Print Assumptions C157_poles.
Print Assumptions C157_extent.
Print Assumptions C157_apart.
Print Assumptions C157_simulates.
Print Assumptions C157_none.
