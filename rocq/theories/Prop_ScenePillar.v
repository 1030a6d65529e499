(** C155: a pillar. *)
From Verif Require Import Base QuatModel QuatProofs VecModel VecProofs BvhModel BvhSpec GridModel VolModel RigidTypes RigidSpec CollModel BaryModel MassModel MassSpec MassProofs MassProofs2 Prop_Mass
  StepModel StepProofs StepProofs2 ReadySpec ReadyProofs ConSpec ApiModel ApiSpec ApiProofs RotModel RotProofs QuatMatProofs Prop_Rotation Prop_Api Prop_Api2
  ProxProofs SurfModel SurfSpec SceneModel SceneSpec SceneMesh SceneProofs SceneShape SceneBox ScenePlace Prop_Scene Prop_SceneLattice Prop_SceneTower Prop_Sweep SceneConical PillarModel.
From Coq Require Import Permutation.
Open Scope R_scope.

(** ** what is built *)
(** the body n is a box of the given size whose centre is on the axis of the pillar at the height y *)
Definition plinth_at (e : engine) (n : name) (mat : name) (density : R) (r : vec3) (q : quat) (w h d y : R) : Prop :=
  stands e n (create_box w h d) (at_pose r q (mkV 0 y 0)) q /\ exists m, pos_up_to_clamp (w * h * d) m /\ at_rest e n false mat (m * density).
(** the body n is a truncated cone over a regular polygon of twelve sides around the axis of the pillar, with radius r0 at the height y and r1 at the height y + h *)
Definition drum_at (e : engine) (n : name) (mat : name) (density : R) (r : vec3) (q : quat) (r0 r1 h y : R) : Prop :=
  exists VT, create_conical r0 r1 h 12 = Some VT /\ stands e n VT (at_pose r q (mkV 0 y 0)) q /\
    exists m, pos_up_to_clamp (h * (r0 * r0 + r0 * r1 + r1 * r1)) m /\ at_rest e n false mat (m * density).
(** the column: from 19/150 to 271/300 of the height, its radius decreasing linearly from 63/200 to 45/200 of the width *)
Definition column_height (height : R) (stones : nat) (i : nat) : R := 19 / 150 * height + INR i / INR stones * (233 / 300 * height).
Definition column_radius (width : R) (stones : nat) (i : nat) : R := 63 / 200 * width - INR i / INR stones * (18 / 200 * width).
(** a truncated cone with twelve sides large enough for its mass, the height of its centre of mass and its moments of inertia to be kept *)
Definition big_drum (r0 r1 h : R) : Prop :=
  tiny < h * (r0 * r0 + r0 * r1 + r1 * r1) /\ tiny < h * (r0 * r0 + 2 * (r0 * r1) + 3 * (r1 * r1)) / (4 * (r0 * r0 + r0 * r1 + r1 * r1)) /\
  let across := (4 + sqrt 3) / 8 * h * (r0 * r0 * (r0 * r0) + r0 * r0 * (r0 * r1) + r0 * r0 * (r1 * r1) + r0 * r1 * (r1 * r1) + r1 * r1 * (r1 * r1)) / 5 in
  let axial := h * h * h * (r0 * r0 + 3 * (r0 * r1) + 6 * (r1 * r1)) / 10 in
  tiny < across + axial /\ tiny < across + across.
(** a pillar whose parts all are that large *)
Definition big_pillar (width height depth : R) (stones : nat) : Prop :=
  big_box width (height / 15) depth /\ big_box width (height / 20) depth /\ big_drum (9 / 20 * width) (63 / 200 * width) (3 / 50 * height) /\ big_drum (9 / 40 * width) (2 / 5 * width) (7 / 150 * height) /\
  forall i, (i < stones)%nat -> big_drum (column_radius width stones i) (column_radius width stones (S i)) (233 / 300 * height / INR stones).
(** the joints between the parts, from the ground *)
Definition joints (height : R) (stones : nat) : list R :=
  [height / 15] ++ map (column_height height stones) (seq 0 (S stones)) ++ [271 / 300 * height; 19 / 20 * height].

(** ** parts that are made and placed one after another *)
Definition part_item (fresh : nat -> name) (r : vec3) (q : quat) (p : nat * (option (list vec3 * list tri) * vec3)) : item :=
  (fresh (2 * fst p + 1)%nat, fresh (2 * fst p)%nat, fst (in_world r q (snd (snd p)) q_identity), snd (in_world r q (snd (snd p)) q_identity)).
Lemma andthen_done o X : andthen o (fun e => Done e) = Done X -> o = Done X.
Proof. destruct o; cbn; auto; discriminate. Qed.
Lemma parts_ok eig sd fresh r q : eig_diagonal eig -> (forall i j, fresh i = fresh j -> i = j) -> forall l e, reach eig sd sane_params e -> (2 <= p_resolution (e_params e))%Z ->
  NoDup (map fst l) -> (forall p, In p l -> ~ In (fresh (2 * fst p)%nat) (map sh_name (e_shapes e)) /\ ~ In (fresh (2 * fst p + 1)%nat) (map b_name (e_bodies e))) ->
  (forall p, In p l -> exists VT, fst (snd p) = Some VT /\ good_stone (fst VT) (snd VT)) ->
  exists ss bs, let e1 := set_shapes e (e_shapes e ++ ss) in each (pillar_part eig sd fresh r q) l e = Done (set_bodies e1 (e_bodies e ++ bs)) /\
    reach eig sd sane_params (set_bodies e1 (e_bodies e ++ bs)) /\ Forall2 (placed e1) (map (part_item fresh r q) l) bs /\
    (forall p, In p l -> exists s VT, find_shape e1 (fresh (2 * fst p)%nat) = Some s /\ fst (snd p) = Some VT /\ is_shape_of s (fst VT) (snd VT)) /\ map sh_name ss = map (fun p => fresh (2 * fst p)%nat) l.
Proof.
  intros HE HI. induction l as [|[m [mesh rl]] l IH]; intros e HR HN ND NF HG.
  - exists [], []. cbn [each map]. rewrite !app_nil_r. destruct e. cbn. split; [reflexivity|]. split; [exact HR|]. split; [constructor|]. split; [intros p []|reflexivity].
  - destruct (HG _ (or_introl eq_refl)) as ([V T] & EM & GS). cbn [fst snd] in EM, GS. subst mesh.
    destruct (NF _ (or_introl eq_refl)) as [NS NB]. cbn [fst] in NS, NB.
    destruct (make_one_shape eig sd e (fresh (2 * m)%nat) V T HE HR HN NS GS) as (s & ES & R1 & EN & FS & IS).
    set (e' := set_shapes e (e_shapes e ++ [s])) in *. set (x := part_item fresh r q (m, (Some (V, T), rl))).
    destruct (place_all_ok eig sd [x] e' R1) as (bs1 & EP & FP & R2).
    { intros y [<-|[]]. exists s. exact FS. }
    { constructor; [intros []|constructor]. }
    { intros y [<-|[]]. exact NB. }
    set (e2 := set_bodies e' (e_bodies e' ++ bs1)) in *.
    assert (EB1 : map b_name bs1 = [fresh (2 * m + 1)%nat]) by (rewrite (placed_names _ _ _ FP); reflexivity).
    cbn [map fst] in ND. inversion ND as [|m' l' ND1 ND2]. subst m' l'.
    destruct (IH e2 R2 HN ND2) as (ss & bs & EE & R3 & FF & FG & FN).
    { intros p Hp. destruct (NF p (or_intror Hp)) as [A B]. assert (D : fst p <> m) by (intros D; apply ND1; rewrite <- D; apply in_map; exact Hp).
      cbn [e2 e' set_bodies set_shapes e_shapes e_bodies]. rewrite !map_app, !in_app_iff. split.
      - intros [C|[C|[]]]; [exact (A C)|]. rewrite EN in C. apply HI in C. lia.
      - rewrite EB1. intros [C|[C|[]]]; [exact (B C)|]. apply HI in C. lia. }
    { intros p Hp. apply HG. right. exact Hp. }
    cbv zeta in EE, R3, FF, FG. exists ([s] ++ ss), (bs1 ++ bs). cbv zeta.
    assert (EQ : set_bodies (set_shapes e2 (e_shapes e2 ++ ss)) (e_bodies e2 ++ bs) = set_bodies (set_shapes e (e_shapes e ++ [s] ++ ss)) (e_bodies e ++ bs1 ++ bs)).
    { rewrite !app_assoc. reflexivity. }
    assert (SH : forall n, find_shape (set_shapes e2 (e_shapes e2 ++ ss)) n = find_shape (set_shapes e (e_shapes e ++ [s] ++ ss)) n).
    { intros n. unfold find_shape. cbn [e2 e' set_bodies set_shapes e_shapes]. rewrite app_assoc. reflexivity. }
    assert (SF : find_shape (set_shapes e (e_shapes e ++ [s] ++ ss)) (fresh (2 * m)%nat) = Some s).
    { rewrite <- SH. unfold find_shape. cbn [e2 set_bodies set_shapes e_shapes]. apply (find_app_l sh_name). exact FS. }
    split.
    { cbn [each]. unfold pillar_part at 1. destruct (in_world r q rl q_identity) as [rg qg] eqn:EW. rewrite ES. cbn [andthen]. fold e'.
      unfold place_all in EP. cbn [each] in EP. unfold x, part_item in EP. cbn [fst snd] in EP. rewrite EW in EP. cbn [fst snd] in EP. apply andthen_done in EP. rewrite EP. cbn [andthen]. fold e2. rewrite EE. rewrite EQ. reflexivity. }
    split; [rewrite <- EQ; exact R3|]. split.
    { cbn [map]. fold x. inversion FP as [|x' b l' bs' Hb FP']; subst. inversion FP'; subst. change ([b] ++ bs) with (b :: bs). constructor.
      - destruct Hb as (s0 & t & i & E0 & Eb). exists s0, t, i. split; [|exact Eb]. change (it_shape x) with (fresh (2 * m)%nat) in *. rewrite SF. rewrite <- E0. symmetry. exact FS.
      - clear - FF SH. induction FF as [|y0 b0 l0 bs0 H0 F0 IH0]; constructor; auto. destruct H0 as (s0 & t & i & E0 & Eb). exists s0, t, i. split; [|exact Eb]. rewrite <- SH. exact E0. }
    split.
    { intros p [<-|Hp]; [exists s, (V, T); cbn [fst snd]; split; [exact SF|]; split; [reflexivity|exact IS]|]. destruct (FG p Hp) as (s0 & VT & F1 & F2 & F3). exists s0, VT. rewrite <- SH. auto. }
    cbn [map app]. rewrite EN, FN. reflexivity.
Qed.
(** ** the parts *)
Lemma caps_eq width height depth : pillar_caps width height depth =
  [(0%nat, (Some (create_box width (height / 15) depth), mkV 0 (height / 30) 0)); (1%nat, (Some (create_box width (height / 20) depth), mkV 0 (39 / 40 * height) 0));
   (2%nat, (create_conical (9 / 20 * width) (63 / 200 * width) (3 / 50 * height) 12, mkV 0 (height / 15) 0));
   (3%nat, (create_conical (9 / 40 * width) (2 / 5 * width) (7 / 150 * height) 12, mkV 0 (271 / 300 * height) 0))].
Proof.
  unfold pillar_caps, base_height, top_height, pillar_radius_stop, pillar_radius_start, pillar_top_radius, pillar_base_radius, cap_height, cup_height, base_height.
  repeat (apply f_equal2; [apply f_equal2; [reflexivity|apply f_equal2; [try reflexivity; apply (f_equal3 (fun a b c => create_conical a b c 12)); field|apply (f_equal3 mkV); field]]|]). reflexivity.
Qed.
Definition column_stone (width height : R) (n i : nat) : nat * (option (list vec3 * list tri) * vec3) :=
  ((4 + i)%nat, (create_conical (column_radius width n i) (column_radius width n (S i)) (233 / 300 * height / INR n) 12, mkV 0 (column_height height n i) 0)).
Lemma ends_eq height : start_y height = 19 / 150 * height /\ end_y height = 271 / 300 * height.
Proof. unfold start_y, end_y, cap_height, cup_height, top_height, base_height. split; field. Qed.
Lemma stone_eq width height n i : 0 < height -> (1 <= n)%nat ->
  pillar_stone width height ((end_y height - start_y height) / INR n) ((pillar_radius_stop width - pillar_radius_start width) / (end_y height - start_y height)) i = column_stone width height n i.
Proof.
  intros Hh Hn. destruct (ends_eq height) as [E0 E1]. assert (P : 0 < INR n) by (apply lt_0_INR; lia).
  unfold pillar_stone, column_stone. cbv zeta. rewrite E0, E1. unfold column_radius, column_height. rewrite S_INR.
  unfold pillar_radius_stop, pillar_radius_start, pillar_base_radius.
  apply f_equal2; [reflexivity|]. apply f_equal2; [apply (f_equal3 (fun a b c => create_conical a b c 12)); field; lra|apply (f_equal3 mkV); field; lra].
Qed.
Lemma column_radius_pos width n i : 0 < width -> (i <= n)%nat -> (1 <= n)%nat -> 0 < column_radius width n i.
Proof.
  intros Hw Hi Hn. unfold column_radius. assert (P : 0 < INR n) by (apply lt_0_INR; lia). assert (L : INR i <= INR n) by (apply le_INR; lia).
  assert (Q : INR i / INR n <= 1). { apply (Rmult_le_reg_r (INR n)); [exact P|]. replace (INR i / INR n * INR n) with (INR i) by (field; lra). lra. } nra.
Qed.
Lemma twelve : polygon_area 12 = 3.
Proof. unfold polygon_area. replace (2 * PI / 12) with (PI / 6) by field. rewrite sin_PI6. field. Qed.
Lemma drum_good r0 r1 h : 0 < r0 -> 0 < r1 -> 0 < h -> exists VT, create_conical r0 r1 h 12 = Some VT /\ good_stone (fst VT) (snd VT) /\ volume (fst VT) (snd VT) = h * (r0 * r0 + r0 * r1 + r1 * r1).
Proof.
  intros H0 H1 H2. exists (conV r0 r1 h 12, conT 12). split; [apply con_eq; lia|]. cbn [fst snd]. split; [apply con_good; auto; lia|]. rewrite con_volume by lia. rewrite twelve. field.
Qed.
Lemma twelve_inertia : polygon_inertia 12 = (4 + sqrt 3) / 8.
Proof. unfold polygon_inertia. rewrite twelve. replace (2 * PI / 12) with (PI / 6) by field. rewrite cos_PI6. field. Qed.
Lemma drum_counted r0 r1 h VT : 0 < r0 -> 0 < r1 -> 0 < h -> create_conical r0 r1 h 12 = Some VT -> big_drum r0 r1 h -> counted_stone (fst VT) (snd VT).
Proof.
  intros H0 H1 H2 E (B0 & B1 & B2 & B3). rewrite con_eq in E by lia. apply some_eq in E. subst VT. cbn [fst snd]. apply con_counted; auto; [lia|]. unfold big_conical. cbv zeta in *. rewrite twelve, twelve_inertia.
  split; [lra|]. split; [exact B1|]. split; lra.
Qed.
Definition pillar_parts (width height depth : R) (n : nat) : list (nat * (option (list vec3 * list tri) * vec3)) :=
  pillar_caps width height depth ++ map (column_stone width height n) (seq 0 n).
Lemma shift4 n : forall k, map (fun i => fst (4 + i, tt)%nat) (seq k n) = seq (4 + k) n.
Proof. induction n as [|n IH]; intros k; [reflexivity|]. cbn [seq map]. apply f_equal2; [reflexivity|]. exact (IH (S k)). Qed.
Lemma parts_numbers width height depth n : map fst (pillar_parts width height depth n) = seq 0 (4 + n).
Proof.
  unfold pillar_parts. rewrite map_app, map_map. rewrite seq_app. cbn [pillar_caps map fst]. apply f_equal2; [reflexivity|]. apply (shift4 n 0).
Qed.
Lemma parts_good width height depth n p : 0 < width -> 0 < height -> 0 < depth -> In p (pillar_parts width height depth n) -> exists VT, fst (snd p) = Some VT /\ good_stone (fst VT) (snd VT).
Proof.
  intros Hw Hh Hd Hp. unfold pillar_parts in Hp. rewrite caps_eq in Hp. apply in_app_or in Hp as [[<-|[<-|[<-|[<-|[]]]]]|Hp]; cbn [fst snd].
  - eexists. split; [reflexivity|]. apply box_good; lra.
  - eexists. split; [reflexivity|]. apply box_good; lra.
  - destruct (drum_good (9 / 20 * width) (63 / 200 * width) (3 / 50 * height)) as (VT & E & G & _); [lra|lra|lra|]. exists VT. auto.
  - destruct (drum_good (9 / 40 * width) (2 / 5 * width) (7 / 150 * height)) as (VT & E & G & _); [lra|lra|lra|]. exists VT. auto.
  - apply in_map_iff in Hp as (i & <- & Hi). apply in_seq in Hi. cbn [fst snd column_stone].
    destruct (drum_good (column_radius width n i) (column_radius width n (S i)) (233 / 300 * height / INR n)) as (VT & E & G & _).
    + apply column_radius_pos; auto; lia.
    + apply column_radius_pos; auto; lia.
    + apply Rdiv_lt_0_compat; [lra|apply lt_0_INR; lia].
    + exists VT. auto.
Qed.
Lemma parts_counted width height depth n p VT : 0 < width -> 0 < height -> 0 < depth -> big_pillar width height depth n -> In p (pillar_parts width height depth n) -> fst (snd p) = Some VT -> counted_stone (fst VT) (snd VT).
Proof.
  intros Hw Hh Hd (B0 & B1 & B2 & B3 & BC) Hp. unfold pillar_parts in Hp. rewrite caps_eq in Hp. apply in_app_or in Hp as [[<-|[<-|[<-|[<-|[]]]]]|Hp]; cbn [fst snd]; intros E.
  - apply some_eq in E. subst VT. apply box_counted; auto; lra.
  - apply some_eq in E. subst VT. apply box_counted; auto; lra.
  - apply (drum_counted _ _ _ VT) in E; auto; lra.
  - apply (drum_counted _ _ _ VT) in E; auto; lra.
  - apply in_map_iff in Hp as (i & <- & Hi). apply in_seq in Hi. cbn [fst snd column_stone] in E.
    apply (drum_counted _ _ _ VT) in E; [exact E| | | |apply BC; lia].
    + apply column_radius_pos; auto; lia.
    + apply column_radius_pos; auto; lia.
    + apply Rdiv_lt_0_compat; [lra|apply lt_0_INR; lia].
Qed.
(** the mesh whose shape has the given name *)
Definition mesh_named (fresh : nat -> name) (l : list (nat * (option (list vec3 * list tri) * vec3))) (sn : name) : list vec3 * list tri :=
  match find (fun p => name_eqb (fresh (2 * fst p)%nat) sn) l with Some (_, (Some VT, _)) => VT | _ => ([], []) end.
Lemma mesh_named_in fresh l p VT : (forall i j, fresh i = fresh j -> i = j) -> NoDup (map fst l) -> In p l -> fst (snd p) = Some VT -> mesh_named fresh l (fresh (2 * fst p)%nat) = VT.
Proof.
  intros HI ND Hp E. unfold mesh_named. induction l as [|x l IH]; [destruct Hp|]. cbn [map] in ND. inversion ND as [|x' l' N1 N2]; subst. cbn [find]. destruct Hp as [->|Hp].
  - rewrite name_eqb_refl. destruct p as [m [o rl]]. cbn [fst snd] in E. subst o. reflexivity.
  - rewrite name_eqb_neq; [apply IH; auto|]. intros D. apply HI in D. apply N1. replace (fst x) with (fst p) by lia. apply in_map. exact Hp.
Qed.

Theorem C155_pillar eig sd e fresh r q width height depth stones density mat : eig_diagonal eig -> reach eig sd sane_params e -> (2 <= p_resolution (e_params e))%Z ->
  new_names e fresh -> exist_material (e_lib e) mat = true -> is_unit q -> 0 < width -> 0 < height -> 0 < depth -> stones <> 0%Z ->
  let n := Z.to_nat stones in
  exists e' socle abacus base echinus column,
    create_pillar eig sd fresh r q width height depth stones density mat e = (Done e', [socle; abacus; base; echinus] ++ column) /\ reach eig sd sane_params e' /\
    adds e e' ([socle; abacus; base; echinus] ++ column) /\ e_hinges e' = e_hinges e /\ NoDup ([socle; abacus; base; echinus] ++ column) /\ names_from fresh e e' ([socle; abacus; base; echinus] ++ column) /\
    plinth_at e' socle mat density r q width (height / 15) depth (height / 30) /\
    drum_at e' base mat density r q (9 / 20 * width) (63 / 200 * width) (3 / 50 * height) (height / 15) /\
    drum_at e' echinus mat density r q (9 / 40 * width) (2 / 5 * width) (7 / 150 * height) (271 / 300 * height) /\
    plinth_at e' abacus mat density r q width (height / 20) depth (39 / 40 * height) /\
    length column = n /\
    (forall i, (i < n)%nat -> exists stone, nth_error column i = Some stone /\
       drum_at e' stone mat density r q (column_radius width n i) (column_radius width n (S i)) (233 / 300 * height / INR n) (column_height height n i)) /\
    (set_up e -> density <> 0 -> big_pillar width height depth n -> set_up e').
Proof.
  intros HE HR HN (HI & HF) HM HQ Hw Hh Hd Hst n. set (l := pillar_parts width height depth n).
  assert (ND : NoDup (map fst l)) by (unfold l; rewrite parts_numbers; apply seq_NoDup).
  destruct (parts_ok eig sd fresh r q HE HI l e HR HN ND) as (ss & bs & EE & R1 & FP & FG & FN).
  { intros p _. split; apply HF. }
  { intros p Hp. exact (parts_good width height depth n p Hw Hh Hd Hp). }
  cbv zeta in EE, R1, FP, FG. set (e1 := set_shapes e (e_shapes e ++ ss)) in *. set (its := map (part_item fresh r q) l) in *.
  destruct (finish_all_ok mat density its e1 (set_bodies e1 (e_bodies e ++ bs)) (e_bodies e) bs eq_refl FP (reach_names _ _ _ _ R1) HM) as (bs' & EF & FB).
  assert (R2 : reach eig sd sane_params (set_bodies (set_bodies e1 (e_bodies e ++ bs)) (e_bodies e ++ bs'))) by (eapply finish_all_reach; [exact R1|exact EF]).
  rewrite set_bodies_twice in EF, R2. set (e' := set_bodies e1 (e_bodies e ++ bs')) in *.
  assert (EN : map it_name its = map (fun m => fresh (2 * m + 1)%nat) (seq 0 (4 + n))).
  { unfold its. rewrite map_map. rewrite <- (parts_numbers width height depth n). fold l. rewrite map_map. reflexivity. }
  assert (ND2 : NoDup (map it_name its)). { rewrite EN. apply FinFun.Injective_map_NoDup; [|apply seq_NoDup]. intros a b H. apply HI in H. lia. }
  destruct (builder_result eig sd e ss false mat density (mesh_named fresh l) its bs' R2) as (HA & HH & HST & HSU).
  { intros x Hx. unfold its in Hx. apply in_map_iff in Hx as (p & <- & _). apply HF. }
  { exact FB. }
  { intros x s Hx Hs. fold e1 in Hs. unfold its in Hx. apply in_map_iff in Hx as (p & <- & Hp). destruct (FG p Hp) as (s0 & VT & F1 & F2 & F3).
    change (it_shape (part_item fresh r q p)) with (fresh (2 * fst p)%nat) in *. rewrite F1 in Hs. apply some_eq in Hs. subst s0. rewrite (mesh_named_in fresh l p VT HI ND Hp F2). exact F3. }
  fold e1 in HA, HH, HST. fold e' in HA, HH, HST.
  assert (ST : forall p VT, In p l -> fst (snd p) = Some VT -> let bn := fresh (2 * fst p + 1)%nat in
     stands e' bn VT (at_pose r q (snd (snd p))) q /\ exists m, pos_up_to_clamp (volume (fst VT) (snd VT)) m /\ at_rest e' bn false mat (m * density)).
  { intros p VT Hp EV bn. destruct (HST (part_item fresh r q p)) as [S1 S2]; [unfold its; apply in_map; exact Hp|].
    change (it_shape (part_item fresh r q p)) with (fresh (2 * fst p)%nat) in *. rewrite (mesh_named_in fresh l p VT HI ND Hp EV) in S1, S2.
    change (it_name (part_item fresh r q p)) with bn in *. split; [|exact S2].
    unfold part_item, in_world in S1. cbn [it_r it_q fst snd] in S1. rewrite q_prod_id_r in S1. apply S1. exact HQ. }
  set (colm := map (fun i => fresh (2 * (4 + i) + 1)%nat) (seq 0 n)).
  exists e', (fresh 1%nat), (fresh 3%nat), (fresh 5%nat), (fresh 7%nat), colm.
  assert (EL : map it_name its = [fresh 1%nat; fresh 3%nat; fresh 5%nat; fresh 7%nat] ++ colm).
  { rewrite EN, seq_app, map_app. apply f_equal2; [reflexivity|]. transitivity (map (fun m => fresh (2 * m + 1)%nat) (map (fun i => fst (4 + i, tt)%nat) (seq 0 n))); [rewrite shift4; reflexivity|rewrite map_map; reflexivity]. }
  assert (CO : forall sl dy, (1 <= n)%nat -> dy = (end_y height - start_y height) / INR n -> sl = (pillar_radius_stop width - pillar_radius_start width) / (end_y height - start_y height) ->
     map (pillar_stone width height dy sl) (seq 0 n) = map (column_stone width height n) (seq 0 n)).
  { intros sl dy Hn -> ->. apply map_ext. intros i. apply stone_eq; auto. }
  split.
  { unfold create_pillar. cbv zeta. fold n.
    assert (EC : map (pillar_stone width height ((end_y height - start_y height) / IZR stones) ((pillar_radius_stop width - pillar_radius_start width) / (end_y height - start_y height))) (seq 0 n) = map (column_stone width height n) (seq 0 n)).
    { destruct (Nat.eq_dec n 0) as [Z|Z]; [rewrite Z; reflexivity|]. apply CO; [lia| |reflexivity]. apply f_equal2; [reflexivity|]. unfold n. rewrite INR_IZR_INZ. f_equal. lia. }
    rewrite EC. apply f_equal2.
    - destruct (Z.eqb_spec stones 0) as [|_]; [contradiction|]. destruct (Reqb_spec (end_y height) (start_y height)) as [D|_]; [exfalso; destruct (ends_eq height) as [A B]; rewrite A, B in D; lra|]. cbn [orb].
      unfold l, pillar_parts in EE. rewrite each_app in EE.
      destruct (each (pillar_part eig sd fresh r q) (pillar_caps width height depth) e) as [e0|e0|]; cbn [andthen] in EE |- *; try discriminate EE. rewrite EE. cbn [andthen].
      replace (map (fun p => fresh (2 * fst p + 1)%nat) (pillar_caps width height depth ++ map (column_stone width height n) (seq 0 n))) with (map it_name its); [exact EF|]. unfold its. rewrite map_map. reflexivity.
    - rewrite <- EL. unfold its. rewrite map_map. reflexivity. }
  split; [exact R2|]. rewrite <- EL. split; [exact HA|]. split; [exact HH|]. split; [exact ND2|]. split.
  { split; [intros m Hm; rewrite EN in Hm; apply in_map_iff in Hm as (k & <- & _); eexists; reflexivity|]. intros m Hm. cbn [e' e1 set_bodies set_shapes e_shapes] in Hm. rewrite map_app, FN, in_app_iff in Hm.
    destruct Hm as [Hm|Hm]; [left; exact Hm|right]. apply in_map_iff in Hm as (p & <- & _). eexists. reflexivity. }
  assert (IC : forall p, In p (pillar_caps width height depth) -> In p l) by (intros p Hp; unfold l, pillar_parts; apply in_or_app; left; exact Hp). rewrite caps_eq in IC.
  assert (DR : forall p r0 r1 h y, In p l -> snd p = (create_conical r0 r1 h 12, mkV 0 y 0) -> 0 < r0 -> 0 < r1 -> 0 < h -> drum_at e' (fresh (2 * fst p + 1)%nat) mat density r q r0 r1 h y).
  { intros p r0 r1 h y Hp E A B C. destruct (drum_good r0 r1 h A B C) as (VT & EV & _ & VV). destruct (ST p VT Hp) as (S1 & m & S2 & S3); [rewrite E; exact EV|]. rewrite E in S1. cbn [snd] in S1.
    exists VT. split; [exact EV|]. split; [exact S1|]. exists m. rewrite <- VV. auto. }
  assert (PL : forall p w h d y, In p l -> snd p = (Some (create_box w h d), mkV 0 y 0) -> 0 < w -> 0 < h -> 0 < d -> plinth_at e' (fresh (2 * fst p + 1)%nat) mat density r q w h d y).
  { intros p w h d y Hp E A B C. destruct (ST p (create_box w h d) Hp) as (S1 & m & S2 & S3); [rewrite E; reflexivity|]. rewrite E in S1. cbn [snd] in S1.
    split; [exact S1|]. exists m. split; [|exact S3]. rewrite <- (box_volume w h d). exact S2. }
  split; [apply (PL _ _ _ _ _ (IC _ (or_introl eq_refl)) eq_refl); lra|]. split; [apply (DR _ _ _ _ _ (IC _ (or_intror (or_intror (or_introl eq_refl)))) eq_refl); lra|].
  split; [apply (DR _ _ _ _ _ (IC _ (or_intror (or_intror (or_intror (or_introl eq_refl))))) eq_refl); lra|]. split; [apply (PL _ _ _ _ _ (IC _ (or_intror (or_introl eq_refl))) eq_refl); lra|].
  split; [unfold colm; rewrite map_length, seq_length; reflexivity|]. split.
  2:{ intros HU HD HB. apply HSU; auto. intros x Hx. unfold its in Hx. apply in_map_iff in Hx as (p & <- & Hp). destruct (parts_good width height depth n p Hw Hh Hd Hp) as (VT & EV & _).
    change (it_shape (part_item fresh r q p)) with (fresh (2 * fst p)%nat). rewrite (mesh_named_in fresh l p VT HI ND Hp EV). exact (parts_counted width height depth n p VT Hw Hh Hd HB Hp EV). }
  intros i Hi. exists (fresh (2 * (4 + i) + 1)%nat). split; [unfold colm; rewrite nth_error_map, seq_nth_error by exact Hi; reflexivity|].
  apply (DR (column_stone width height n i)); [|reflexivity|apply column_radius_pos; auto; lia|apply column_radius_pos; auto; lia|apply Rdiv_lt_0_compat; [lra|apply lt_0_INR; lia]].
  unfold l, pillar_parts. apply in_or_app. right. apply in_map. apply in_seq. lia.
Qed.

(** ** the parts do not overlap *)
(** the height of a point above the base of the pillar *)
Definition height_in (r : vec3) (q : quat) (p : vec3) : R := vy (q_rotate (q_conj q) (vsub p r)).
Lemma height_between e n VT r q y lo hi p : is_unit q -> stands e n VT (at_pose r q (mkV 0 y 0)) q -> (forall v, In v (fst VT) -> lo <= vy v <= hi) -> occupies e n p -> y + lo <= height_in r q p <= y + hi.
Proof.
  intros HQ HS HB HO. destruct (stands_inside e n VT _ q p HQ HS HO) as (x & -> & HX).
  assert (E : height_in r q (at_pose (at_pose r q (mkV 0 y 0)) q x) = y + vy x).
  { unfold height_in. replace (vsub (at_pose (at_pose r q (mkV 0 y 0)) q x) r) with (q_rotate q (vadd x (mkV 0 y 0))).
    - rewrite q_rotate_inv_l by exact HQ. unfold vadd. cbn [vy]. ring.
    - unfold at_pose. rewrite q_rotate_add. generalize (q_rotate q x) (q_rotate q (mkV 0 y 0)). intros [a0 a1 a2] [b0 b1 b2]. destruct r as [r0 r1 r2]. unfold vadd, vsub. cbn [vx vy vz]. f_equal; ring. }
  rewrite E. pose proof (HX (mkV 0 1 0) hi) as U. pose proof (HX (mkV 0 (-1) 0) (- lo)) as L. unfold vdot in U, L. cbn [vx vy vz] in U, L.
  assert (U' : 0 * vx x + 1 * vy x + 0 * vz x <= hi) by (apply U; intros v Hv; destruct (HB v Hv); lra).
  assert (L' : 0 * vx x + -1 * vy x + 0 * vz x <= - lo) by (apply L; intros v Hv; destruct (HB v Hv); lra). lra.
Qed.
Lemma plinth_between e n mat density r q w h d y p : is_unit q -> 0 < h -> plinth_at e n mat density r q w h d y -> occupies e n p -> y - h / 2 <= height_in r q p <= y + h / 2.
Proof.
  intros HQ Hh (HS & _) HO. assert (G : y + - (h / 2) <= height_in r q p <= y + h / 2); [|lra]. apply (height_between e n _ r q y _ _ p HQ HS); [|exact HO].
  intros v Hv. change (fst (create_box w h d)) with (boxV w h d) in Hv. rewrite boxV_eq in Hv. repeat (destruct Hv as [<-|Hv]; [cbn [vy]; lra|]). destruct Hv.
Qed.
Lemma drum_between e n mat density r q r0 r1 h y p : is_unit q -> 0 < h -> drum_at e n mat density r q r0 r1 h y -> occupies e n p -> y <= height_in r q p <= y + h.
Proof.
  intros HQ Hh (VT & EV & HS & _) HO. assert (G : y + 0 <= height_in r q p <= y + h); [|lra]. apply (height_between e n VT r q y _ _ p HQ HS); [|exact HO].
  rewrite con_eq in EV by lia. apply some_eq in EV. subst VT. cbn [fst]. intros v Hv. apply (con_between r0 r1 h 12); auto; lia.
Qed.
Section levels.
  Variables (height : R) (n : nat).
  Hypotheses (Hh : 0 < height) (Hn : (1 <= n)%nat).
  Let B (l : nat) : R := match l with O => 0 | S O => height / 15 | S (S i) => if Nat.leb i n then column_height height n i else if Nat.eqb i (S n) then 19 / 20 * height else height end.
  Lemma nR : 0 < INR n. Proof. apply lt_0_INR. lia. Qed.
  Lemma col_next i : column_height height n (S i) = column_height height n i + 233 / 300 * height / INR n.
  Proof. pose proof nR. unfold column_height. rewrite S_INR. field. lra. Qed.
  Lemma col_last : column_height height n n = 271 / 300 * height.
  Proof. pose proof nR. unfold column_height. replace (INR n / INR n) with 1 by (field; lra). field. Qed.
  Lemma B_step l : (l <= n + 3)%nat -> B l <= B (S l).
  Proof.
    intros Hl. pose proof nR. destruct l as [|[|i]]; cbn [B].
    - lra.
    - cbn [Nat.leb]. unfold column_height. cbn [INR]. unfold Rdiv at 2. lra.
    - destruct (Nat.leb_spec i n) as [L|L], (Nat.leb_spec (S i) n) as [L'|L']; try lia.
      + rewrite col_next. assert (0 < 233 / 300 * height / INR n) by (apply Rdiv_lt_0_compat; lra). lra.
      + assert (i = n) by lia. subst i. rewrite Nat.eqb_refl, col_last. lra.
      + assert (i = S n) by lia. subst i. rewrite Nat.eqb_refl. destruct (Nat.eqb_spec (S (S n)) (S n)); [lia|]. lra.
  Qed.
  Lemma B_mono l k : (l + k <= n + 4)%nat -> B l <= B (l + k).
  Proof. induction k as [|k IH]; intros H; [rewrite Nat.add_0_r; lra|]. rewrite Nat.add_succ_r. apply (Rle_trans _ (B (l + k))); [apply IH; lia|apply B_step; lia]. Qed.
  Lemma B_joint l : (1 <= l <= n + 3)%nat -> In (B l) (joints height n).
  Proof.
    intros Hl. unfold joints. destruct l as [|[|i]]; [lia|left; reflexivity|]. cbn [B]. apply in_or_app. right. apply in_or_app. destruct (Nat.leb_spec i n) as [L|L].
    - left. apply in_map. apply in_seq. lia.
    - right. destruct (Nat.eqb_spec i (S n)) as [_|]; [right; left; reflexivity|lia].
  Qed.
  Lemma B_meet l m H : (l < m)%nat -> (m <= n + 3)%nat -> B l <= H <= B (S l) -> B m <= H <= B (S m) -> In H (joints height n).
  Proof.
    intros L M [_ H1] [H2 _]. pose proof (B_mono (S l) (m - S l) ltac:(lia)) as Q. replace (S l + (m - S l))%nat with m in Q by lia. replace H with (B m) by lra. apply B_joint. lia.
  Qed.
  Lemma level_joints (at_level : nat -> name) a b l m H : at_level l = a -> at_level m = b -> a <> b -> (l <= n + 3)%nat -> (m <= n + 3)%nat -> B l <= H <= B (S l) -> B m <= H <= B (S m) -> In H (joints height n).
  Proof.
    intros <- <- D L M HL HM. destruct (lt_eq_lt_dec l m) as [[C|C]|C]; [apply (B_meet l m); auto|subst; contradiction|apply (B_meet m l); auto].
  Qed.
  (** what the levels are, for a pillar that stands *)
  Lemma levels_ok e mat density r q width depth socle abacus base echinus column p : is_unit q ->
    plinth_at e socle mat density r q width (height / 15) depth (height / 30) ->
    drum_at e base mat density r q (9 / 20 * width) (63 / 200 * width) (3 / 50 * height) (height / 15) ->
    drum_at e echinus mat density r q (9 / 40 * width) (2 / 5 * width) (7 / 150 * height) (271 / 300 * height) ->
    plinth_at e abacus mat density r q width (height / 20) depth (39 / 40 * height) -> length column = n ->
    (forall i, (i < n)%nat -> exists stone, nth_error column i = Some stone /\
       drum_at e stone mat density r q (column_radius width n i) (column_radius width n (S i)) (233 / 300 * height / INR n) (column_height height n i)) ->
    let at_level l := match l with O => socle | S O => base | S (S i) => if Nat.ltb i n then nth i column [] else if Nat.eqb i n then echinus else abacus end in
    forall a, In a ([socle; abacus; base; echinus] ++ column) -> occupies e a p -> exists l, at_level l = a /\ (l <= n + 3)%nat /\ B l <= height_in r q p <= B (S l).
  Proof.
    intros HQ H1 H2 H3 H4 HL HC at_level a Ha HO. pose proof nR. apply in_app_or in Ha. destruct Ha as [[<-|[<-|[<-|[<-|[]]]]]|Ha].
    - exists 0%nat. split; [reflexivity|]. split; [lia|]. assert (Q := plinth_between _ _ _ _ _ _ width (height / 15) depth _ p HQ ltac:(lra) H1 HO). cbn [B]. lra.
    - exists (n + 3)%nat. replace (n + 3)%nat with (S (S (S n))) by lia. cbn [at_level B]. destruct (Nat.ltb_spec (S n) n); [lia|]. destruct (Nat.eqb_spec (S n) n); [lia|]. split; [reflexivity|]. split; [lia|].
      assert (Q := plinth_between _ _ _ _ _ _ width (height / 20) depth _ p HQ ltac:(lra) H4 HO). destruct (Nat.leb_spec (S n) n); [lia|]. rewrite Nat.eqb_refl. destruct (Nat.leb_spec (S (S n)) n); [lia|]. destruct (Nat.eqb_spec (S (S n)) (S n)); [lia|]. lra.
    - exists 1%nat. split; [reflexivity|]. split; [lia|]. assert (Q := drum_between _ _ _ _ _ _ _ _ (3 / 50 * height) _ p HQ ltac:(lra) H2 HO). cbn [B Nat.leb]. assert (E0 : column_height height n 0 = 19 / 150 * height) by (unfold column_height; cbn [INR]; field; lra). rewrite E0. lra.
    - exists (n + 2)%nat. replace (n + 2)%nat with (S (S n)) by lia. cbn [at_level B]. destruct (Nat.ltb_spec n n); [lia|]. rewrite Nat.eqb_refl. split; [reflexivity|]. split; [lia|].
      assert (Q := drum_between _ _ _ _ _ _ _ _ (7 / 150 * height) _ p HQ ltac:(lra) H3 HO). rewrite Nat.leb_refl, col_last. destruct (Nat.leb_spec (S n) n); [lia|]. rewrite ?Nat.eqb_refl. lra.
    - apply (In_nth _ _ []) in Ha as (i & Hi & <-). assert (Hi2 : (i < n)%nat) by (rewrite <- HL; exact Hi). clear Hi; rename Hi2 into Hi. exists (S (S i)). cbn [at_level B]. destruct (Nat.ltb_spec i n); [|lia]. split; [reflexivity|]. split; [lia|].
      destruct (HC i Hi) as (c & EC & HD). apply (nth_error_nth _ _ []) in EC. rewrite EC in HO.
      assert (P : 0 < 233 / 300 * height / INR n) by (apply Rdiv_lt_0_compat; lra). destruct (drum_between _ _ _ _ _ _ _ _ _ _ p HQ P HD HO) as [Q1 Q2]. rewrite <- col_next in Q2.
      destruct (Nat.leb_spec i n); [|lia]. destruct (Nat.leb_spec (S i) n); [|lia]. lra.
  Qed.
End levels.

Theorem C155_joints eig sd e fresh r q width height depth stones density mat e' names a b p : eig_diagonal eig -> reach eig sd sane_params e -> (2 <= p_resolution (e_params e))%Z ->
  new_names e fresh -> exist_material (e_lib e) mat = true -> is_unit q -> 0 < width -> 0 < height -> 0 < depth -> (1 <= stones)%Z ->
  create_pillar eig sd fresh r q width height depth stones density mat e = (Done e', names) ->
  In a names -> In b names -> a <> b -> occupies e' a p -> occupies e' b p -> In (vy (q_rotate (q_conj q) (vsub p r))) (joints height (Z.to_nat stones)).
Proof.
  intros HE HR HN HF HM HQ Hw Hh Hd Hst H Ha Hb D OA OB.
  destruct (C155_pillar eig sd e fresh r q width height depth stones density mat HE HR HN HF HM HQ Hw Hh Hd ltac:(lia)) as (e1 & so & ab & ba & ec & co & E & _ & _ & _ & _ & _ & H1 & H2 & H3 & H4 & HL & HC & _).
  rewrite E in H. injection H as <- <-. set (n := Z.to_nat stones) in *. assert (Hn : (1 <= n)%nat) by (unfold n; lia).
  destruct (levels_ok height n Hh Hn e1 mat density r q width depth so ab ba ec co p HQ H1 H2 H3 H4 HL HC a Ha OA) as (l & L1 & L2 & L3).
  destruct (levels_ok height n Hh Hn e1 mat density r q width depth so ab ba ec co p HQ H1 H2 H3 H4 HL HC b Hb OB) as (m & M1 & M2 & M3).
  exact (level_joints height n Hh Hn (fun l => match l with O => so | S O => ba | S (S i) => if Nat.ltb i n then nth i co [] else if Nat.eqb i n then ec else ab end) a b l m _ L1 M1 D L2 M2 L3 M3).
Qed.
(** the pillar can be simulated *)
Theorem C155_simulates eig sd e fresh r q width height depth stones density mat e' names time : eig_diagonal eig -> reach eig sd sane_params e -> (2 <= p_resolution (e_params e))%Z ->
  new_names e fresh -> exist_material (e_lib e) mat = true -> is_unit q -> 0 < width -> 0 < height -> 0 < depth -> stones <> 0%Z ->
  set_up e -> density <> 0 -> big_pillar width height depth (Z.to_nat stones) -> 0 < time -> 0 < p_time_step (e_params e) ->
  create_pillar eig sd fresh r q width height depth stones density mat e = (Done e', names) ->
  exists e2 dts, lsum dts = time /\ exists n, forall fuel, (n <= fuel)%nat -> simulate fuel time e' = SimDone e2 dts.
Proof.
  intros HE HR HN HF HM HQ Hw Hh Hd Hst HU HD HB HT HTS H.
  destruct (C155_pillar eig sd e fresh r q width height depth stones density mat HE HR HN HF HM HQ Hw Hh Hd Hst) as (e1 & so & ab & ba & ec & co & E & R1 & HA & _ & _ & _ & _ & _ & _ & _ & _ & _ & U).
  rewrite E in H. assert (e1 = e') by congruence. subst e1. destruct HA as (_ & _ & _ & _ & _ & _ & EP & _).
  destruct (C84_simulate eig sd e' time R1 (U HU HD HB) HT) as (e2 & dts & K1 & _ & K2); [rewrite EP; exact HTS|]. exists e2, dts. auto.
Qed.
(** no pillar without stones *)
Theorem C155_none eig sd fresh r q width height depth density mat e e' : fst (create_pillar eig sd fresh r q width height depth 0 density mat e) <> Done e'.
Proof.
  unfold create_pillar. cbv zeta. cbn [fst Z.eqb orb]. destruct (each _ (pillar_caps width height depth) e); cbn [andthen]; discriminate.
Qed.

(** a pillar with two stones in a new engine: the mass of its socle and of the lower stone *)
Example C155_nonvacuous sd : reach diag_eig sd sane_params create_engine /\ (2 <= p_resolution (e_params create_engine))%Z /\ exist_material (e_lib create_engine) default_name = true /\
  eig_diagonal diag_eig /\ new_names create_engine numbered /\ set_up create_engine /\ big_pillar 20 300 20 2 /\
  exists e' names, create_pillar diag_eig sd numbered vzero q_identity 20 300 20 2 1 default_name create_engine = (Done e', names) /\ names = [[1]; [3]; [5]; [7]; [9]; [11]]%nat /\
    at_rest e' [1]%nat false default_name 8000 /\ stands e' [1]%nat (create_box 20 20 20) (mkV 0 10 0) q_identity /\
    at_rest e' [9]%nat false default_name (2396871 / 200).
Proof.
  assert (R0 : reach diag_eig sd sane_params create_engine). { apply reach_new. split; [reflexivity|]. cbn. split; [lia|lra]. }
  assert (HM : exist_material (e_lib create_engine) default_name = true) by reflexivity.
  assert (HP : (2 <= p_resolution (e_params create_engine))%Z) by (cbn; lia).
  assert (UQ : is_unit q_identity) by (unfold is_unit, q_identity, qdot; cbn; ring).
  split; [exact R0|]. split; [exact HP|]. split; [exact HM|]. split; [exact diag_eig_diagonal|]. split; [exact numbered_new|].
  split; [split; [|split]; cbn; tauto|]. split.
  { assert (S3 : 0 <= sqrt 3) by apply sqrt_pos. assert (BD : forall r0 r1 h, 1 <= r0 -> 1 <= r1 -> 1 <= h -> big_drum r0 r1 h).
    { intros r0 r1 h A B C. assert (P1 : 1 <= r0 * r0) by nra. assert (P2 : 1 <= r0 * r1) by nra. assert (P3 : 1 <= r1 * r1) by nra. assert (HH : 1 <= h * h) by nra. assert (HHH : 1 <= h * h * h) by nra.
      unfold big_drum, tiny. cbv zeta. split; [nra|]. split.
      - apply (Rmult_lt_reg_r (4 * (r0 * r0 + r0 * r1 + r1 * r1))); [lra|]. replace (h * (r0 * r0 + 2 * (r0 * r1) + 3 * (r1 * r1)) / (4 * (r0 * r0 + r0 * r1 + r1 * r1)) * (4 * (r0 * r0 + r0 * r1 + r1 * r1))) with (h * (r0 * r0 + 2 * (r0 * r1) + 3 * (r1 * r1))) by (field; lra). nra.
      - assert (Q : 5 <= r0 * r0 * (r0 * r0) + r0 * r0 * (r0 * r1) + r0 * r0 * (r1 * r1) + r0 * r1 * (r1 * r1) + r1 * r1 * (r1 * r1)) by nra.
        set (q4 := r0 * r0 * (r0 * r0) + r0 * r0 * (r0 * r1) + r0 * r0 * (r1 * r1) + r0 * r1 * (r1 * r1) + r1 * r1 * (r1 * r1)) in *.
        assert (X : 1 / 2 <= (4 + sqrt 3) / 8 * h * q4 / 5). { assert (1 / 2 <= (4 + sqrt 3) / 8 * h) by nra. nra. }
        assert (Y : 1 <= h * h * h * (r0 * r0 + 3 * (r0 * r1) + 6 * (r1 * r1)) / 10) by nra. split; lra. }
    unfold big_pillar. split; [unfold big_box, tiny; repeat split; lra|]. split; [unfold big_box, tiny; repeat split; lra|]. split; [apply BD; lra|]. split; [apply BD; lra|].
    intros i Hi. destruct i as [|[|i]]; [| |lia]; apply BD; unfold column_radius; cbn [INR]; lra. }
  destruct (C155_pillar diag_eig sd create_engine numbered vzero q_identity 20 300 20 2 1 default_name diag_eig_diagonal R0 HP numbered_new HM UQ ltac:(lra) ltac:(lra) ltac:(lra) ltac:(lia)) as (e' & so & ab & ba & ec & co & E & _ & _ & _ & _ & _ & (H1 & m1 & M1 & A1) & _ & _ & _ & HL & HC & _).
  exists e', ([so; ab; ba; ec] ++ co). split; [exact E|].
  assert (EN : [so; ab; ba; ec] ++ co = [[1]; [3]; [5]; [7]; [9]; [11]]%nat). { apply (f_equal snd) in E. cbn [snd] in E. symmetry. exact E. }
  split; [exact EN|]. change (Z.to_nat 2) with 2%nat in *.
  destruct co as [|c0 [|c1 [|c2 co]]]; try discriminate HL. cbn [app] in EN. assert (so = [1]%nat) by congruence. assert (c0 = [9]%nat) by congruence. subst so c0.
  destruct (HC 0%nat ltac:(lia)) as (c & Ec & VT & _ & _ & m & Hm & HA). cbn [nth_error] in Ec. apply some_eq in Ec. subst c.
  split. { apply pos_clamp_val in M1; [|unfold tiny; lra]. replace 8000 with (m1 * 1) by (rewrite M1; field). exact A1. }
  split. { assert (EP : at_pose vzero q_identity (mkV 0 (300 / 30) 0) = mkV 0 10 0). { unfold at_pose. rewrite q_rotate_id. unfold vadd, vzero. cbn [vx vy vz]. apply (f_equal3 mkV); field. }
    rewrite EP in H1. replace (300 / 15) with 20 in H1 by field. exact H1. }
  assert (EV : 233 / 300 * 300 / INR 2 * (column_radius 20 2 0 * column_radius 20 2 0 + column_radius 20 2 0 * column_radius 20 2 1 + column_radius 20 2 1 * column_radius 20 2 1) = 2396871 / 200).
  { unfold column_radius. cbn [INR]. field. }
  apply pos_clamp_val in Hm; [|rewrite EV; unfold tiny; lra]. rewrite EV in Hm. rewrite Hm in HA. replace (2396871 / 200) with (2396871 / 200 * 1) by ring. exact HA.
Qed.
Print Assumptions C155_pillar.
Print Assumptions C155_joints.
Print Assumptions C155_simulates.
Print Assumptions C155_none.
