(** C159: a lattice of copies of one mesh. *)
From Verif Require Import Base QuatModel QuatProofs VecModel VecProofs BvhModel BvhSpec GridModel VolModel RigidTypes RigidSpec CollModel BaryModel MassModel MassSpec MassProofs MassProofs2 Prop_Mass
  StepModel StepProofs StepProofs2 ReadySpec ReadyProofs ConSpec ApiModel ApiSpec ApiProofs RotModel RotProofs QuatMatProofs Prop_Rotation Prop_Api Prop_Api2
  SurfModel SurfSpec SurfProofs Prop_Surface Prop_Sweep SceneModel SceneSpec SceneMesh SceneProofs SceneShape SceneBox SceneConical SceneCylinder ScenePlace Prop_Scene Prop_SceneLattice Prop_SceneTower Prop_SceneColosseum
  FitModel Prop_SceneFit JackModel.
From Coq Require Import Permutation.
Open Scope R_scope.

Theorem C159_jacks eig sd file fresh rnd r q w h d I J K density mat random e e' names : reach eig sd sane_params e -> 
  (forall V T V', create_mesh eig (fst file) (snd file) = Some (V, T) -> fit_cell V w h d I J K (9 / 10) = Some V' -> eig_good eig V' T) ->
  new_names e fresh -> exist_material (e_lib e) mat = true -> 0 < w -> 0 < h -> 0 < d ->
  create_jack_lattice eig sd file fresh rnd r q w h d I J K density mat random e = (Done e', names) ->
  reach eig sd sane_params e' /\ adds e e' names /\ e_hinges e' = e_hinges e /\ length names = (I * J * K)%nat /\ NoDup names /\
  exists s, e_shapes e' = e_shapes e ++ [s] /\ sh_name s = fresh 0%nat /\ is_unit (sh_q s) /\
    (** in the frame of the mesh the shape fits a cell, with a tenth of padding *)
    (exists a b c, has_size (map (fun v => vadd (q_rotate (sh_q s) v) (sh_r s)) (sh_V s)) a b c /\ a <= 9 / 10 * (w / INR I) /\ b <= 9 / 10 * (h / INR J) /\ c <= 9 / 10 * (d / INR K) /\
       Rmax (Rmax a b) c = 9 / 10 * Rmin (Rmin (w / INR I) (h / INR J)) (d / INR K)) /\
    forall i j k, (i < I)%nat -> (j < J)%nat -> (k < K)%nat -> let m := ((i * J + j) * K + k)%nat in
      exists n b, nth_error names m = Some n /\ find_body e' n = Some b /\ b_shape b = Some s /\
        b_r b = at_pose r q (cell_centre w h d I J K i j k) /\
        b_q b = q_unit (q_prod q (if random then rnd m else q_identity)) /\ at_rest e' n false mat (sh_mass s * density).
Proof.
  intros HR HG HNN HM Hw Hh Hd E. pose proof HNN as (HI & HF). unfold create_jack_lattice in E.
  destruct (create_mesh eig (fst file) (snd file)) as [[V T]|] eqn:EC; [|discriminate]. destruct (fit_cell V w h d I J K (9 / 10)) as [V'|] eqn:EF; [|discriminate].
  assert (HB : exists l u, bounding_box V l u).
  { unfold fit_cell in EF. destruct (_ || _ || _); [discriminate|]. destruct (scale_to_unit V) as [V1|] eqn:ES; [|discriminate]. unfold scale_to_unit in ES.
    destruct (np_min0 V) as [l|] eqn:El; [|discriminate]. destruct (np_max0 V) as [u|] eqn:Eu; [|discriminate]. exists l, u. apply np_box; assumption. }
  destruct (C158_fit_cell V w h d I J K (9 / 10) V' Hw Hh Hd ltac:(lra) HB EF) as (_ & SZ).
  assert (NZ : (0 < I)%nat /\ (0 < J)%nat /\ (0 < K)%nat).
  { unfold fit_cell in EF. destruct (Nat.eqb_spec I 0); [discriminate|]. destruct (Nat.eqb_spec J 0); [discriminate|]. destruct (Nat.eqb_spec K 0); [discriminate|]. lia. }
  destruct NZ as (PI & PJ & PK).
  destruct (fst (create_shape eig sd e (fresh 0%nat) V' T true)) as [e1|e1|] eqn:ES; [|discriminate|discriminate].
  pose proof (HG V T V' eq_refl EF) as HG'.
  assert (R1 : reach eig sd sane_params e1). { apply (reach_done _ _ _ (CreateShape (fresh 0%nat) V' T true) e); [auto|exact HG'|exact ES]. }
  unfold create_shape in ES. destruct (find_shape e (fresh 0%nat)) eqn:FN; [discriminate|]. destruct (compute_mass_properties V' T 1) as [p|] eqn:EP; [|discriminate].
  pose proof (HG' p EP) as HE. cbv zeta in HE. unfold xform_model_2_body_space in ES. destruct (translate_to_body p) as [rt pb] eqn:ET. cbn [snd] in HE.
  destruct (rotate_to_model_spec eig pb HE) as (q0 & Jd & ERM & HU & _). rewrite ERM in ES.
  destruct (shape_boundary _ _) as [bd|]; [|discriminate]. destruct (create_signed_distance _ _ _ _ _ _) as [g|]; [|discriminate]. cbn [fst] in ES.
  set (s := mkShape (fresh 0%nat) _ _ _ _ _ _ _) in ES. assert (E1 : e1 = set_shapes e (e_shapes e ++ [s])) by congruence. clear ES.
  assert (FS : find_shape e1 (fresh 0%nat) = Some s).
  { rewrite E1. unfold find_shape in *. cbn [e_shapes set_shapes]. rewrite (find_app_new sh_name (e_shapes e) s (fresh 0%nat) FN eq_refl). destruct (name_eqb_spec (fresh 0%nat) (fresh 0%nat)); [reflexivity|congruence]. }
  assert (HN1 : new_names e1 (fun m => fresh (S m))).
  { split; [intros a b H; apply HI in H; lia|]. intros i. rewrite E1. cbn [e_bodies e_shapes set_shapes]. split; [apply HF|]. rewrite map_app, in_app_iff. intros [C|[C|[]]]; [exact (proj2 (HF (S i)) C)|]. cbn [sh_name s] in C. apply HI in C. lia. }
  assert (HM1 : exist_material (e_lib e1) mat = true) by (rewrite E1; exact HM).
  assert (HSH : forall sn, In sn [fresh 0%nat] -> In sn (map sh_name (e_shapes e1))). { intros sn [<-|[]]. rewrite E1. cbn [e_shapes set_shapes]. rewrite map_app. apply in_or_app. right. left. reflexivity. }
  destruct (C141_lattice eig sd e1 (fun m => fresh (S m)) rnd r q [fresh 0%nat] w h d I J K density mat random None R1 HN1 HM1 PI PJ PK ltac:(discriminate) HSH) as (e2 & ns & E2 & R2 & A2 & H2 & S2 & L2 & N2 & G2 & _).
  rewrite E2 in E. assert (e2 = e') by congruence. assert (ns = names) by congruence. subst e2 ns. clear E.
  split; [exact R2|]. split.
  { destruct A2 as (A & B & C & D). rewrite E1 in A, B, C, D. split; [exact A|]. split; [exact B|]. split; [|exact D].
    intros m Hm. rewrite C by (cbn [e_shapes set_shapes]; rewrite map_app; apply in_or_app; left; exact Hm). unfold find_shape. cbn [e_shapes set_shapes]. apply in_map_iff in Hm as (x & <- & Hx). destruct (find (fun a => name_eqb (sh_name a) (sh_name x)) (e_shapes e)) as [y|] eqn:FY; [apply SceneProofs.find_app_l; exact FY|].
    exfalso. pose proof (List.find_none _ _ FY x Hx) as Z. cbv beta in Z. destruct (name_eqb_spec (sh_name x) (sh_name x)); congruence. }
  split; [rewrite H2, E1; reflexivity|]. split; [exact L2|]. split; [exact N2|]. exists s. split; [rewrite S2, E1; reflexivity|]. split; [reflexivity|]. split; [exact HU|]. split.
  { destruct SZ as (a & b & c & SZ). exists a, b, c. replace (map _ (sh_V s)) with V'; [exact SZ|]. cbn [sh_V sh_q sh_r s]. unfold to_body_frame. rewrite q_rotate_array_map, !map_map.
    symmetry. rewrite <- (map_id V') at 2. apply map_ext. intros v. rewrite q_rotate_inv_r by exact HU. destruct v, rt. unfold vadd, vopp. cbn. f_equal; ring. }
  intros i j k Hi Hj Hk m. destruct (G2 i j k Hi Hj Hk) as (n & b & sn & s' & X1 & X2 & X3 & X4 & X5 & X6 & X7 & X8).
  cbn [length] in X3. rewrite Nat.mod_1_r in X3. cbn in X3. assert (sn = fresh 0%nat) by congruence. subst sn. rewrite FS in X4. assert (s' = s) by congruence. subst s'.
  exists n, b. auto 10.
Qed.
(** with a known material it either builds the lattice or raises and leaves the engine as it was *)
Theorem C159_all_or_nothing eig sd file fresh rnd r q w h d I J K density mat random e o names : reach eig sd sane_params e ->
  (forall V T V', create_mesh eig (fst file) (snd file) = Some (V, T) -> fit_cell V w h d I J K (9 / 10) = Some V' -> eig_good eig V' T) ->
  new_names e fresh -> exist_material (e_lib e) mat = true ->
  create_jack_lattice eig sd file fresh rnd r q w h d I J K density mat random e = (o, names) -> (exists e', o = Done e') \/ o = Raised e.
Proof.
  intros HR HG HNN HM E. pose proof HNN as (HI & HF). unfold create_jack_lattice in E.
  destruct (create_mesh eig (fst file) (snd file)) as [[V T]|] eqn:EC; [|right; congruence]. destruct (fit_cell V w h d I J K (9 / 10)) as [V'|] eqn:EF; [|right; congruence].
  assert (NZ : (0 < I)%nat /\ (0 < J)%nat /\ (0 < K)%nat).
  { unfold fit_cell in EF. destruct (Nat.eqb_spec I 0); [discriminate|]. destruct (Nat.eqb_spec J 0); [discriminate|]. destruct (Nat.eqb_spec K 0); [discriminate|]. lia. }
  destruct NZ as (PI & PJ & PK). pose proof (HG V T V' eq_refl EF) as HG'.
  destruct (fst (create_shape eig sd e (fresh 0%nat) V' T true)) as [e1|e1|] eqn:ES.
  - left. assert (R1 : reach eig sd sane_params e1). { apply (reach_done _ _ _ (CreateShape (fresh 0%nat) V' T true) e); [auto|exact HG'|exact ES]. }
    assert (E1 : exists s, e1 = set_shapes e (e_shapes e ++ [s]) /\ sh_name s = fresh 0%nat).
    { unfold create_shape in ES. repeat (match type of ES with context [match ?x with _ => _ end] => destruct x end; try discriminate). all: cbn [fst] in ES; try discriminate; assert (DI : forall x y, Done x = Done y -> x = y) by congruence; apply DI in ES; subst e1; eexists; split; [reflexivity|reflexivity]. }
    destruct E1 as (s & E1 & EN).
    assert (HN1 : new_names e1 (fun m => fresh (S m))).
    { split; [intros a b H; apply HI in H; lia|]. intros i. rewrite E1. cbn [e_bodies e_shapes set_shapes]. split; [apply HF|]. rewrite map_app, in_app_iff. intros [C|[C|[]]]; [exact (proj2 (HF (S i)) C)|]. rewrite EN in C. apply HI in C. lia. }
    assert (HM1 : exist_material (e_lib e1) mat = true) by (rewrite E1; exact HM).
    assert (HSH : forall sn, In sn [fresh 0%nat] -> In sn (map sh_name (e_shapes e1))). { intros sn [<-|[]]. rewrite E1. cbn [e_shapes set_shapes]. rewrite map_app. apply in_or_app. right. left. exact EN. }
    destruct (C141_lattice eig sd e1 (fun m => fresh (S m)) rnd r q [fresh 0%nat] w h d I J K density mat random None R1 HN1 HM1 PI PJ PK ltac:(discriminate) HSH) as (e2 & ns & E2 & _).
    exists e2. congruence.
  - right. assert (e1 = e); [|congruence]. assert (DI : forall x y, Raised x = Raised y -> y = x) by congruence. unfold create_shape in ES.
    destruct (find_shape e (fresh 0%nat)); [exact (DI _ _ ES)|]. destruct (compute_mass_properties V' T 1) as [p|]; [|exact (DI _ _ ES)].
    destruct (xform_model_2_body_space eig p) as [[[[? ?] ?] ?]|]; [|exact (DI _ _ ES)]. cbv zeta in ES.
    destruct (shape_boundary _ _); [|exact (DI _ _ ES)]. destruct (create_signed_distance _ _ _ _ _ _); [discriminate|exact (DI _ _ ES)].
  - exfalso. unfold create_shape in ES.
    destruct (find_shape e (fresh 0%nat)); [discriminate|]. destruct (compute_mass_properties V' T 1) as [p|]; [|discriminate].
    destruct (xform_model_2_body_space eig p) as [[[[? ?] ?] ?]|]; [|discriminate]. cbv zeta in ES.
    destruct (shape_boundary _ _); [|discriminate]. destruct (create_signed_distance _ _ _ _ _ _); discriminate.
Qed.

(** ** a unit cube and cells of 10/9 *)
Lemma unit_box_box : bounding_box (boxV 1 1 1) (mkV (- (1 / 2)) (- (1 / 2)) (- (1 / 2))) (mkV (1 / 2) (1 / 2) (1 / 2)).
Proof.
  rewrite boxV_eq. split. { intros p Hp. cbn [In] in Hp. unfold v_le. cbn [vx vy vz]. repeat (destruct Hp as [<-|Hp]; [cbn [vx vy vz]; lra|]). destruct Hp. }
  set (lo := mkV (- (1) / 2) (- (1) / 2) (- (1) / 2)). set (hi := mkV (1 / 2) (1 / 2) (1 / 2)).
  assert (F : forall c, (exists p, In p [lo] /\ c p) -> exists p : vec3, In p (lo :: [mkV (1 / 2) (- (1) / 2) (- (1) / 2); mkV (- (1) / 2) (1 / 2) (- (1) / 2); mkV (1 / 2) (1 / 2) (- (1) / 2); mkV (- (1) / 2) (- (1) / 2) (1 / 2); mkV (1 / 2) (- (1) / 2) (1 / 2); mkV (- (1) / 2) (1 / 2) (1 / 2); hi]) /\ c p) by (intros c (p & [<-|[]] & H); exists lo; split; [left; reflexivity|exact H]).
  assert (L : forall c, (exists p, In p [hi] /\ c p) -> exists p : vec3, In p (lo :: [mkV (1 / 2) (- (1) / 2) (- (1) / 2); mkV (- (1) / 2) (1 / 2) (- (1) / 2); mkV (1 / 2) (1 / 2) (- (1) / 2); mkV (- (1) / 2) (- (1) / 2) (1 / 2); mkV (1 / 2) (- (1) / 2) (1 / 2); mkV (- (1) / 2) (1 / 2) (1 / 2); hi]) /\ c p) by (intros c (p & [<-|[]] & H); exists hi; split; [do 7 right; left; reflexivity|exact H]).
  split; [apply F; exists lo; split; [left; reflexivity|unfold lo; cbn [vx vy vz]; lra]|]. split; [apply F; exists lo; split; [left; reflexivity|unfold lo; cbn [vx vy vz]; lra]|]. split; [apply F; exists lo; split; [left; reflexivity|unfold lo; cbn [vx vy vz]; lra]|].
  split; [apply L; exists hi; split; [left; reflexivity|reflexivity]|]. split; apply L; exists hi; (split; [left; reflexivity|reflexivity]).
Qed.
Lemma box_perm V V' l u : Permutation V V' -> bounding_box V l u -> bounding_box V' l u.
Proof.
  intros P (B & (p1 & I1 & E1) & (p2 & I2 & E2) & (p3 & I3 & E3) & (p4 & I4 & E4) & (p5 & I5 & E5) & (p6 & I6 & E6)).
  split; [intros p Hp; apply B; apply (Permutation_in _ (Permutation_sym P)); exact Hp|].
  split; [exists p1; split; [apply (Permutation_in _ P)|]; assumption|]. split; [exists p2; split; [apply (Permutation_in _ P)|]; assumption|]. split; [exists p3; split; [apply (Permutation_in _ P)|]; assumption|].
  split; [exists p4; split; [apply (Permutation_in _ P)|]; assumption|]. split; [exists p5; split; [apply (Permutation_in _ P)|]; assumption|]. exists p6; split; [apply (Permutation_in _ P)|]; assumption.
Qed.
Lemma unit_fits V : bounding_box V (mkV (- (1 / 2)) (- (1 / 2)) (- (1 / 2))) (mkV (1 / 2) (1 / 2) (1 / 2)) -> fit_cell V (20 / 9) (20 / 9) (20 / 9) 2 2 2 (9 / 10) = Some V.
Proof.
  intros HB. unfold fit_cell. cbn [Nat.eqb orb].
  assert (M : Rmin (Rmin (20 / 9 / INR 2) (20 / 9 / INR 2)) (20 / 9 / INR 2) * (9 / 10) = 1). { rewrite !Rmin_left by (rewrite ?Rmin_left; lra). cbn [INR]. lra. }
  rewrite M. cbv zeta.
  unfold scale_to_unit. destruct (np_min0 V) as [l|] eqn:El, (np_max0 V) as [u|] eqn:Eu; try (destruct V; [destruct HB as (_ & (p & [] & _) & _)|discriminate]).
  destruct (box_unique _ _ _ _ _ HB (np_box V l u El Eu)) as [-> ->].
  assert (X : vmaxcomp (vsub (mkV (1 / 2) (1 / 2) (1 / 2)) (mkV (- (1 / 2)) (- (1 / 2)) (- (1 / 2)))) = 1). { unfold vmaxcomp, vsub. cbn [vx vy vz]. rewrite !Rmax_left by (rewrite ?Rmax_left; lra). lra. }
  rewrite X. destruct (Reqb_spec 1 0); [lra|]. cbv zeta. f_equal. unfold mesh_scale, mesh_translate. rewrite !map_map. rewrite <- (map_id V) at 2. apply map_ext. intros [x y z].
  unfold vmul3, vadd, vopp, vdiv, vscale. cbn [vx vy vz]. f_equal; lra.
Qed.
Example C159_nonvacuous sd rnd : exists e', fst (create_jack_lattice diag_eig sd (boxV 1 1 1, boxT 1 1 1) (fun i => [S i]) rnd vzero q_identity (20 / 9) (20 / 9) (20 / 9) 2 2 2 3 default_name true create_engine) = Done e' /\
  reach diag_eig sd sane_params create_engine /\ new_names create_engine (fun i => [S i]) /\ exist_material (e_lib create_engine) default_name = true /\
  (forall V T V', create_mesh diag_eig (boxV 1 1 1) (boxT 1 1 1) = Some (V, T) -> fit_cell V (20 / 9) (20 / 9) (20 / 9) 2 2 2 (9 / 10) = Some V' -> eig_good diag_eig V' T) /\
  length (e_bodies e') = 8%nat.
Proof.
  assert (R0 : reach diag_eig sd sane_params create_engine). { apply reach_new. split; [reflexivity|]. cbn. split; [lia|lra]. }
  assert (GB : good_stone (boxV 1 1 1) (boxT 1 1 1)) by (apply box_good; lra).
  destruct (make_shape_ok diag_eig sd create_engine [1%nat] (boxV 1 1 1) (boxT 1 1 1) diag_eig_diagonal R0 ltac:(cbn; lia) eq_refl GB) as (s & ES & R1 & EN & _).
  pose proof GB as (HP & _ & HL & _ & _ & _ & (dd & HD) & _).
  destruct (create_mesh_ok diag_eig (boxV 1 1 1) (boxT 1 1 1) HP HL) as (V & T & EM & PV & HP' & PC). { rewrite HD. apply diag_eig_diagonal. }
  pose proof (unit_fits V (box_perm _ _ _ _ PV unit_box_box)) as EF.
  assert (NN : new_names create_engine (fun i => [S i])). { split; [intros i j H; injection H; auto|]. intros i. cbn. tauto. }
  assert (HG : forall V0 T0 V', create_mesh diag_eig (boxV 1 1 1) (boxT 1 1 1) = Some (V0, T0) -> fit_cell V0 (20 / 9) (20 / 9) (20 / 9) 2 2 2 (9 / 10) = Some V' -> eig_good diag_eig V' T0).
  { intros V0 T0 V' E1 E2. assert (V0 = V) by congruence. assert (T0 = T) by congruence. subst V0 T0. assert (V' = V) by congruence. subst V'.
    apply (stone_eig diag_eig (boxV 1 1 1) (boxT 1 1 1) V T diag_eig_diagonal GB). split; [exact PV|split; [exact HP'|exact PC]]. }
  unfold make_shape in ES. cbn [fst snd] in ES. rewrite EM in ES.
  destruct (create_jack_lattice diag_eig sd (boxV 1 1 1, boxT 1 1 1) (fun i => [S i]) rnd vzero q_identity (20 / 9) (20 / 9) (20 / 9) 2 2 2 3 default_name true create_engine) as [o ns] eqn:E.
  assert (D : exists e', o = Done e').
  { unfold create_jack_lattice in E. cbn [fst snd] in E. rewrite EM, EF, ES in E. set (e1 := set_shapes create_engine (e_shapes create_engine ++ [s])) in *.
    destruct (C141_lattice diag_eig sd e1 (fun m => [S (S m)]) rnd vzero q_identity [[1%nat]] (20 / 9) (20 / 9) (20 / 9) 2 2 2 3 default_name true None R1) as (e2 & n2 & E2 & _); try reflexivity; try lia; try discriminate.
    - split; [intros i j H; injection H; auto|]. intros i. cbn. split; [tauto|]. intros [H|[]]. rewrite EN in H. discriminate.
    - intros sn [<-|[]]. cbn. left. exact EN.
    - exists e2. assert (E3 : (o, ns) = (Done e2, n2)) by (rewrite <- E2; symmetry; exact E). congruence. }
  destruct D as (e' & ->). exists e'. cbn [fst]. split; [reflexivity|]. split; [exact R0|]. split; [exact NN|]. split; [reflexivity|]. split; [exact HG|].
  destruct (C159_jacks diag_eig sd (boxV 1 1 1, boxT 1 1 1) (fun i => [S i]) rnd vzero q_identity (20 / 9) (20 / 9) (20 / 9) 2 2 2 3 default_name true create_engine e' ns R0 HG NN eq_refl ltac:(lra) ltac:(lra) ltac:(lra) E) as (_ & A & _ & L & _).
  destruct A as (A & _). cbn in A. rewrite <- (map_length b_name), A. exact L.
Qed.
Print Assumptions C159_jacks.
Print Assumptions C159_all_or_nothing.
