(** The traversal of read_urdf: an invariant, for robots whose joints have different children. *)
From Verif Require Import Base QuatModel QuatProofs VecModel VecProofs BvhModel GridModel VolModel RigidTypes SurfModel MassModel MassSpec ApiModel ConSpec ApiSpec ReadyProofs ApiProofs Prop_Api SceneModel SceneProofs Prop_SceneChain UrdfModel UrdfSpec UrdfProofs.
From Coq Require Import Permutation.
Open Scope R_scope.

(** * one body, one hinge *)
Lemma with_pose_twice b r q r' q' : with_pose (with_pose b r q) r' q' = with_pose b r' q'.
Proof. reflexivity. Qed.
Lemma set_frame_step e c X b : find_body e c = Some b -> is_unit (xq X) -> exists e', set_frame e c X = Done e' /\ only_body e e' c (fun b => with_pose b (xr X) (xq X)).
Proof.
  intros F U. unfold set_frame, set_position. rewrite F. cbn [andthen].
  pose proof (upd_only e c (fun b => with_pose b (xr X) (b_q b)) (fun _ => eq_refl)) as O1. set (e1 := upd_body e c _) in *.
  unfold set_orientation. destruct O1 as (A1 & A2 & A3 & A4 & A5 & A6 & A7 & A8 & A9 & A10). rewrite A2, F. cbn [option_map].
  pose proof (upd_only e1 c (fun b => with_pose b (b_r b) (q_unit (xq X))) (fun _ => eq_refl)) as O2. set (e2 := upd_body e1 c _) in *. exists e2. split; [reflexivity|].
  destruct O2 as (B1 & B2 & B3 & B4 & B5 & B6 & B7 & B8 & B9 & B10). rewrite A2, F in B2. cbn [option_map] in B2. rewrite q_unit_of_unit in B2 by auto.
  split; [intros m Hm; rewrite B1, A1 by auto; reflexivity|]. split; [rewrite B2, F; reflexivity|]. repeat split; congruence.
Qed.
Lemma hinge_step e hn pn cn o s P C : In hn (map h_name (e_hinges e)) -> find_body e pn = Some P -> find_body e cn = Some C -> is_unit (b_q P) -> is_unit (b_q C) -> vdot s s = 1 ->
  exists e' h sp sc, set_hinge e hn pn cn o s World = Done e' /\ find_hinge e' hn = Some h /\ h_sockets h = Some (sp, sc) /\ sk_body sp = pn /\ sk_body sc = cn /\
    anchor P sp = o /\ anchor C sc = o /\ axis_w P sp = s /\ axis_w C sc = s /\
    (forall m, m <> hn -> find_hinge e' m = find_hinge e m) /\ map h_name (e_hinges e') = map h_name (e_hinges e) /\ e' = set_hinges e (e_hinges e').
Proof.
  intros HI FP FC UP UC US. unfold set_hinge. destruct (find_hinge e hn) as [h|] eqn:Eh; [|apply (find_none h_name) in Eh; tauto]. rewrite FP, FC. cbn [hinge_world].
  assert (Hs : s <> vzero). { intros ->. unfold vzero, vdot in US; cbn in US. lra. }
  destruct (orthonormal_spec s Hs) as (t & b & n & E & _). rewrite E. destruct (hinge_frame s t b n E) as (q & Eq & HU & En & Ek). rewrite Eq.
  assert (NS : n = s). { rewrite En. unfold vnorm. rewrite US, sqrt_1. destruct s; unfold vdiv; cbn. f_equal; field. }
  destruct (socket_anchor P o q UP) as [AP XP]. destruct (socket_anchor C o q UC) as [AC XC]. rewrite Ek, NS in XP, XC.
  pose proof (find_some h_name _ _ _ Eh) as [_ Nh]. pose proof (find_some b_name _ _ _ FP) as [_ NP]. pose proof (find_some b_name _ _ _ FC) as [_ NC].
  match goal with |- context [map ?f (e_hinges e)] => set (g := f) end.
  assert (GN : forall x, h_name (g x) = h_name x) by (intros x; unfold g; destruct (name_eqb _ _); reflexivity).
  assert (FH : forall m, find_hinge (set_hinges e (map g (e_hinges e))) m = option_map g (find_hinge e m)).
  { intros m. unfold find_hinge. cbn [e_hinges set_hinges]. apply find_map_named. auto. }
  exists (set_hinges e (map g (e_hinges e))), (mkHinge (h_name h) (h_idx h) (Some (make_socket P o q, make_socket C o q))), (make_socket P o q), (make_socket C o q).
  split; [reflexivity|]. split. { rewrite FH, Eh. cbn [option_map]. unfold g. rewrite Nh, name_eqb_refl. reflexivity. }
  split; [reflexivity|]. split; [exact NP|]. split; [exact NC|]. do 4 (split; [assumption|]). split.
  { intros m Hm. rewrite FH. destruct (find_hinge e m) as [h'|] eqn:E'; auto. cbn. f_equal. pose proof (find_some h_name _ _ _ E') as [_ N']. unfold g. rewrite name_eqb_neq by congruence. reflexivity. }
  split; [cbn; rewrite map_map; apply map_ext; auto|reflexivity].
Qed.
Lemma set_hinges_rest e hs m : find_body (set_hinges e hs) m = find_body e m. Proof. reflexivity. Qed.

Section Walk.
Variables (hs : list joint) (root : name) (B : name -> coordsys) (N : list name) (e0 : engine).
Hypothesis HB : forall n, is_unit (xq (B n)).
Hypothesis HNd : NoDup N.
Hypothesis HChild : NoDup (map jt_child hs).
Hypothesis HNames : NoDup (map jt_name hs).
Hypothesis HEnds : forall j, In j hs -> In (jt_parent j) N /\ In (jt_child j) N /\ In (jt_name j) (map h_name (e_hinges e0)).
Hypothesis HUnit : forall j a, In j hs -> jt_axis j = Some a -> vdot a a = 1.
Hypothesis HRoot : In root N /\ ~ In root (map jt_child hs).
Hypothesis HBody : forall n, In n N -> exists b, find_body e0 n = Some b /\ b_r b = vzero /\ b_q b = q_identity.

(** the frame of a link in the world, as the code computes it *)
Inductive lf : name -> coordsys -> Prop :=
| lf_root : lf root (B root)
| lf_child : forall j X, In j hs -> lf (jt_parent j) X -> lf (jt_child j) (x_concat X (jt_X j)).
Lemma lf_unit n X : lf n X -> is_unit (xq X).
Proof. intros []; [apply HB|apply q_unit_is_unit]. Qed.
Lemma by_key {A} (f : joint -> A) l j j' : NoDup (map f l) -> In j l -> In j' l -> f j = f j' -> j = j'.
Proof.
  induction l as [|a l IH]; cbn [map In]; intros ND H1 H2 E; [tauto|]. inversion ND as [|x y N1 N2]; subst.
  destruct H1 as [<-|H1]; destruct H2 as [<-|H2]; auto; exfalso; apply N1; [rewrite E|rewrite <- E]; apply in_map; auto.
Qed.
Lemma child_unique j j' : In j hs -> In j' hs -> jt_child j = jt_child j' -> j = j'.
Proof. apply by_key. exact HChild. Qed.
Lemma lf_fun n X : lf n X -> forall Y, lf n Y -> X = Y.
Proof.
  induction 1 as [|j X Hj HX IH]; intros Y HY; inversion HY; subst; auto.
  - exfalso. apply (proj2 HRoot). match goal with H : jt_child ?j = root |- _ => rewrite <- H; apply in_map; auto end.
  - exfalso. apply (proj2 HRoot). match goal with H : _ = root |- _ => rewrite <- H | H : root = _ |- _ => rewrite H end; apply in_map; auto.
  - match goal with H : jt_child ?j' = jt_child j |- _ => assert (j' = j) by (apply child_unique; auto); subst j' end. f_equal. auto.
Qed.
Definition pose (n : name) (X : coordsys) : coordsys := if name_eqb n root then B root else x_concat X (B n).
Lemma pose_unit n X : is_unit (xq (pose n X)).
Proof. unfold pose. destruct (name_eqb n root); [apply HB|apply q_unit_is_unit]. Qed.
Definition placed (H : list joint) : list name := root :: map jt_child H.
Definition hinge_ok (e : engine) (j : joint) : Prop :=
  exists h sp sc P C X a, find_hinge e (jt_name j) = Some h /\ h_sockets h = Some (sp, sc) /\ sk_body sp = jt_parent j /\ sk_body sc = jt_child j /\
    find_body e (jt_parent j) = Some P /\ find_body e (jt_child j) = Some C /\ lf (jt_child j) X /\ jt_axis j = Some a /\
    anchor P sp = xr X /\ anchor C sc = xr X /\ axis_w P sp = q_rotate (xq X) a /\ axis_w C sc = q_rotate (xq X) a.
Record inv (H : list joint) (e : engine) (robot : list node) : Prop := mkInv {
  i_parents : forall j, In j H -> In (jt_parent j) (placed H);
  i_sub : incl H hs; i_nodup : NoDup (map jt_child H);
  i_names : map n_name robot = N;
  i_static : forall n k, find_node robot n = Some k -> n_children k = edges_of hs n;
  i_done : forall n k, In n (placed H) -> find_node robot n = Some k -> lf n (n_X k);
  i_free : forall n k, ~ In n (placed H) -> find_node robot n = Some k -> n_X k = B n;
  i_body : forall n, In n N -> exists b X, find_body e0 n = Some b /\ find_body e n = Some (with_pose b (xr X) (xq X)) /\
     (In n (placed H) -> exists Y, lf n Y /\ X = pose n Y) /\ (~ In n (placed H) -> X = mkX vzero q_identity);
  i_other : forall n, ~ In n N -> find_body e n = find_body e0 n;
  i_hinge : forall j, In j H -> hinge_ok e j;
  i_hfree : forall m, ~ In m (map jt_name H) -> find_hinge e m = find_hinge e0 m;
  i_rest : map b_name (e_bodies e) = map b_name (e_bodies e0) /\ map h_name (e_hinges e) = map h_name (e_hinges e0) /\ e_forces e = e_forces e0 /\ e_shapes e = e_shapes e0 /\
     e_contacts e = e_contacts e0 /\ e_lib e = e_lib e0 /\ e_params e = e_params e0 /\ e_stepper e = e_stepper e0 }.
Lemma upd_found robot n f m : (forall k, n_name (f k) = n_name k) -> find_node (upd_node robot n f) m = option_map (fun k => if name_eqb m n then f k else k) (find_node robot m).
Proof.
  intros F. unfold find_node, upd_node. rewrite (find_map_named n_name) by (intros x; destruct (name_eqb (n_name x) n); auto).
  destruct (find (fun k => name_eqb (n_name k) m) robot) as [k|] eqn:E; auto. cbn. apply (find_some n_name) in E as [_ ->]. reflexivity.
Qed.
Lemma with_pose_unit H e robot n b X : inv H e robot -> In n N -> find_body e n = Some (with_pose b (xr X) (xq X)) -> is_unit (xq X).
Proof.
  intros I Hn F. destruct (i_body _ _ _ I n Hn) as (b' & X' & F0 & F1 & P1 & P2). assert (EQ : xq X = xq X') by (rewrite F in F1; apply (f_equal (option_map b_q)) in F1; cbn in F1; congruence).
  assert (U : is_unit (xq X')). { destruct (in_dec (list_eq_dec Nat.eq_dec) n (placed H)) as [Q|Q]; [destruct (P1 Q) as (Y & _ & ->); apply pose_unit|rewrite (P2 Q); unfold is_unit, qdot, q_identity; cbn; ring]. }
  rewrite EQ. exact U.
Qed.
Lemma child_step H e robot j Xp k a : inv H e robot -> In j hs -> In (jt_parent j) (placed H) -> lf (jt_parent j) Xp -> ~ In (jt_child j) (placed H) -> find_node robot (jt_child j) = Some k -> jt_axis j = Some a ->
  exists e', andthen (set_frame e (jt_child j) (x_concat (x_concat Xp (jt_X j)) (n_X k))) (fun e =>
      set_hinge e (jt_name j) (jt_parent j) (jt_child j) (xform_point (x_concat Xp (jt_X j)) vzero) (xform_vector (x_concat Xp (jt_X j)) a) World) = Done e' /\
    inv (H ++ [j]) e' (upd_node robot (jt_child j) (fun k => mkNode (n_name k) (x_concat Xp (jt_X j)) (n_parent k) (n_children k))).
Proof.
  intros I Hj Hp Lp Hc Fk Ha. destruct (HEnds j Hj) as (Np & Nc & Nh).
  assert (Lc : lf (jt_child j) (x_concat Xp (jt_X j))) by (apply lf_child; auto). set (Xj := x_concat Xp (jt_X j)) in *.
  rewrite (i_free _ _ _ I _ _ Hc Fk). clear k Fk.
  assert (PC : x_concat Xj (B (jt_child j)) = pose (jt_child j) Xj). { unfold pose. rewrite name_eqb_neq; auto. intros E. apply Hc. left. auto. }
  assert (Ncp : jt_child j <> jt_parent j). { intros E. apply Hc. rewrite E. auto. }
  destruct (i_body _ _ _ I _ Nc) as (bc & Xc & FC0 & FC & _). 
  destruct (set_frame_step e (jt_child j) (x_concat Xj (B (jt_child j))) _ FC (q_unit_is_unit _)) as (e1 & E1 & O1). rewrite E1. cbn [andthen].
  destruct O1 as (A1 & A2 & A3 & A4 & A5 & A6 & A7 & A8 & A9 & A10). rewrite FC in A2. cbn [option_map] in A2. rewrite with_pose_twice in A2. rewrite PC in A2.
  destruct (i_body _ _ _ I _ Np) as (bp & XP & FP0 & FP & _). assert (FP1 : find_body e1 (jt_parent j) = Some (with_pose bp (xr XP) (xq XP))) by (rewrite A1 by congruence; auto).
  pose proof (with_pose_unit _ _ _ _ _ _ I Np FP) as UP.
  destruct (i_rest _ _ _ I) as (R1 & R2 & R3 & R4 & R5 & R6 & R7 & R8).
  assert (US : vdot (xform_vector Xj a) (xform_vector Xj a) = 1).
  { unfold xform_vector. rewrite q_rotate_dot. pose proof (lf_unit _ _ Lc) as U. unfold is_unit in U. rewrite U. rewrite (HUnit j a Hj Ha). ring. }
  destruct (hinge_step e1 (jt_name j) (jt_parent j) (jt_child j) (xform_point Xj vzero) (xform_vector Xj a) _ _ ltac:(rewrite A6, R2; exact Nh) FP1 A2 UP (pose_unit _ _) US)
    as (e' & h & sp & sc & EH & FH & HS & S1 & S2 & AP & AC & XAP & XAC & FO & HN & EQ).
  exists e'. split; [exact EH|].
  assert (FB : forall m, find_body e' m = find_body e1 m) by (intros m; rewrite EQ; apply set_hinges_rest).
  assert (FH1 : forall m, find_hinge e1 m = find_hinge e m) by (intros m; unfold find_hinge; rewrite A6; reflexivity).
  assert (EO : xform_point Xj vzero = xr Xj). { unfold xform_point. rewrite q_rotate_zero0. destruct (xr Xj); unfold vadd, vzero; cbn. f_equal; ring. } rewrite EO in AP, AC.
  assert (PL : forall n, In n (placed (H ++ [j])) <-> In n (placed H) \/ n = jt_child j). { intros n. unfold placed. rewrite map_app. cbn. rewrite in_app_iff. cbn. split; intros; intuition congruence. }
  assert (NJ : ~ In j H). { intros HH. apply Hc. right. apply in_map. auto. }
  constructor.
  - intros j' Hj'. apply PL. left. apply in_app_iff in Hj' as [Hj'|[<-|[]]]; auto. apply (i_parents _ _ _ I). auto.
  - intros x Hx. apply in_app_iff in Hx as [Hx|[<-|[]]]; auto. apply (i_sub _ _ _ I). auto.
  - rewrite map_app. cbn. apply (Permutation_NoDup (Permutation_cons_append _ _)). constructor; [intros Q; apply Hc; right; exact Q|apply (i_nodup _ _ _ I)].
  - rewrite upd_node_names by auto. apply (i_names _ _ _ I).
  - intros n k. rewrite upd_found by auto. destruct (find_node robot n) as [k0|] eqn:F; [|discriminate]. cbn. intros Q. injection Q as <-. pose proof (i_static _ _ _ I _ _ F). destruct (name_eqb n (jt_child j)); auto.
  - intros n k Hn. rewrite upd_found by auto. destruct (find_node robot n) as [k0|] eqn:F; [|discriminate]. cbn. intros Q. injection Q as <-. destruct (name_eqb_spec n (jt_child j)) as [->|D]; [exact Lc|].
    apply (i_done _ _ _ I); auto. apply PL in Hn as [Hn|Hn]; [auto|congruence].
  - intros n k Hn. rewrite upd_found by auto. destruct (find_node robot n) as [k0|] eqn:F; [|discriminate]. cbn. intros Q. injection Q as <-. rewrite PL in Hn. destruct (name_eqb_spec n (jt_child j)) as [->|D]; [tauto|].
    apply (i_free _ _ _ I); auto.
  - intros n Hn. rewrite FB. destruct (name_eqb_spec n (jt_child j)) as [->|D].
    + exists bc, (pose (jt_child j) Xj). split; [auto|]. split; [exact A2|]. split; [eauto|]. rewrite PL. tauto.
    + destruct (i_body _ _ _ I _ Hn) as (b & X & F0 & F1 & Q1 & Q2). exists b, X. rewrite A1 by auto. do 2 (split; auto). rewrite PL. split; [intros [?|?]; [auto|congruence]|auto].
  - intros n Hn. rewrite FB, A1 by congruence. apply (i_other _ _ _ I). auto.
  - intros j' Hj'. apply in_app_iff in Hj' as [Hj'|[<-|[]]].
    + destruct (i_hinge _ _ _ I _ Hj') as (h' & sp' & sc' & P' & C' & X' & a' & Q1 & Q2 & Q3 & Q4 & Q5 & Q6 & Q7 & Q8).
      pose proof (i_sub _ _ _ I _ Hj') as Hj1.
      assert (DN : jt_name j' <> jt_name j). { intros E. apply NJ. rewrite <- (by_key jt_name hs j' j HNames Hj1 Hj E). exact Hj'. }
      assert (DC : jt_child j' <> jt_child j). { intros E. apply Hc. rewrite <- E. right. apply in_map. auto. }
      assert (DP : jt_parent j' <> jt_child j). { intros E. apply Hc. rewrite <- E. apply (i_parents _ _ _ I). auto. }
      exists h', sp', sc', P', C', X', a'. rewrite FO by auto. rewrite !FB, !A1 by auto. rewrite FH1. tauto.
    + exists h, sp, sc, (with_pose bp (xr XP) (xq XP)), (with_pose bc (xr (pose (jt_child j) Xj)) (xq (pose (jt_child j) Xj))), Xj, a. rewrite !FB. tauto.
  - intros m Hm. rewrite map_app, in_app_iff in Hm. cbn in Hm. rewrite FO by intuition congruence. rewrite FH1. apply (i_hfree _ _ _ I). tauto.
  - rewrite EQ. cbn [set_hinges e_bodies e_hinges e_forces e_shapes e_contacts e_lib e_params e_stepper]. rewrite HN, A6, A3. repeat split; congruence.
Qed.
Lemma place_children_step : forall l H e robot pn Xp, inv H e robot -> (forall j, In j l -> In j hs /\ jt_parent j = pn) -> NoDup (map jt_child (H ++ l)) -> In pn (placed H) -> lf pn Xp ->
  (exists e' robot', place_children pn Xp (map (fun j => (jt_child j, j)) l) e robot = (Done e', robot') /\ inv (H ++ l) e' robot') \/
  (exists robot', place_children pn Xp (map (fun j => (jt_child j, j)) l) e robot = (Nan, robot') /\ exists j, In j l /\ jt_axis j = None).
Proof.
  induction l as [|j l IH]; intros H e robot pn Xp I Hl ND Hp Lp.
  - left. exists e, robot. rewrite app_nil_r. auto.
  - destruct (Hl j (or_introl eq_refl)) as [Hj Ep]. destruct (HEnds j Hj) as (_ & Nc & _). cbn [map place_children].
    destruct (find_node robot (jt_child j)) as [k|] eqn:Fk. 2:{ exfalso. assert (Q : find_node robot (jt_child j) <> None) by (apply find_node_in; rewrite (i_names _ _ _ I); auto). auto. }
    destruct (jt_axis j) as [a|] eqn:Ea. 2:{ right. eexists. split; [reflexivity|]. exists j. split; [left; auto|auto]. }
    assert (Hc : ~ In (jt_child j) (placed H)).
    { intros [E|Hi]; [apply (proj2 HRoot); rewrite E; apply in_map; auto|]. rewrite map_app in ND. cbn [map] in ND. apply NoDup_remove_2 in ND. apply ND. apply in_app_iff. auto. }
    subst pn. destruct (child_step H e robot j Xp k a I Hj Hp Lp Hc Fk Ea) as (e1 & E1 & I1). rewrite E1.
    destruct (IH (H ++ [j]) e1 _ (jt_parent j) Xp I1) as [(e' & r' & E2 & I2)|(r' & E2 & j' & Hj' & A')].
    + intros j' Hj'. apply Hl. right. auto.
    + rewrite <- app_assoc. exact ND.
    + unfold placed in *. rewrite map_app. cbn [In] in *. rewrite in_app_iff. tauto.
    + exact Lp.
    + left. exists e', r'. rewrite <- app_assoc in I2. auto.
    + right. exists r'. split; [exact E2|]. exists j'. split; [right|]; auto.
Qed.
Lemma nodup_children_app H pn D : incl H hs -> NoDup (map jt_child H) -> (forall j, In j hs -> (In j H <-> In (jt_parent j) D)) -> ~ In pn D ->
  NoDup (map jt_child (H ++ filter (fun j => name_eqb (jt_parent j) pn) hs)).
Proof.
  intros S ND HD Hn. rewrite map_app. set (l := filter _ hs).
  assert (L : forall j, In j l -> In j hs /\ jt_parent j = pn). { intros j Hj. apply filter_In in Hj as [H1 H2]. split; auto. destruct (name_eqb_spec (jt_parent j) pn); congruence. }
  assert (NL : NoDup (map jt_child l)). { unfold l. clear -HChild. induction hs as [|a t IH]; cbn; [constructor|]. inversion HChild; subst. destruct (name_eqb _ _); auto. cbn. constructor; auto. intros Q. apply H1. apply in_map_iff in Q as (x & <- & Hx). apply filter_In in Hx as [Hx _]. apply in_map. auto. }
  assert (DJ : forall c, In c (map jt_child H) -> ~ In c (map jt_child l)).
  { intros c H1 H2. apply in_map_iff in H1 as (j1 & <- & H1). apply in_map_iff in H2 as (j2 & E & H2). destruct (L _ H2) as [H3 P]. pose proof (child_unique j2 j1 H3 (S _ H1) E) as ->. apply Hn. rewrite <- P. apply HD; auto. }
  clear -ND NL DJ. induction (map jt_child H) as [|c m IH]; cbn; auto. inversion ND; subst. constructor; [|apply IH; auto; intros; apply DJ; right; auto].
  rewrite in_app_iff. intros [?|?]; [auto|]. apply (DJ c); [left; auto|auto].
Qed.
Lemma walk_ok : forall fuel st D H e robot, inv H e robot -> NoDup (D ++ st) -> (forall n, In n (D ++ st) <-> In n (placed H)) -> (forall j, In j hs -> (In j H <-> In (jt_parent j) D)) ->
  (walk fuel st e robot = None /\ (length D + fuel < length N)%nat) \/
  (exists e' robot' H', walk fuel st e robot = Some (Done e') /\ inv H' e' robot' /\ (forall j, In j hs -> In (jt_parent j) (placed H') -> In j H')) \/
  (walk fuel st e robot = Some Nan /\ exists j, In j hs /\ jt_axis j = None).
Proof.
  induction fuel as [|fuel IH]; intros st D H e robot I ND PL HD.
  - destruct st as [|n st]; cbn [walk].
    + right; left. exists e, robot, H. split; auto. split; auto. intros j Hj Hp. apply HD; auto. apply PL in Hp. rewrite app_nil_r in Hp. auto.
    + left. split; auto. assert (incl (D ++ n :: st) N).
      { intros m Hm. apply PL in Hm as [<-|Hm]; [apply HRoot|]. apply in_map_iff in Hm as (j & <- & Hj). apply (HEnds j). apply (i_sub _ _ _ I). auto. }
      pose proof (NoDup_incl_length ND H0) as Q. rewrite app_length in Q. cbn in Q. lia.
  - destruct st as [|n st]; cbn [walk].
    + right; left. exists e, robot, H. split; auto. split; auto. intros j Hj Hp. apply HD; auto. apply PL in Hp. rewrite app_nil_r in Hp. auto.
    + assert (Hn : In n (placed H)) by (apply PL; apply in_app_iff; right; left; auto).
      assert (HnN : In n N). { destruct Hn as [<-|Hm]; [apply HRoot|]. apply in_map_iff in Hm as (j & <- & Hj). apply (HEnds j). apply (i_sub _ _ _ I). auto. }
      assert (HnD : ~ In n D) by (intros Q; apply NoDup_remove_2 in ND; apply ND; apply in_app_iff; auto).
      destruct (find_node robot n) as [k|] eqn:Fk. 2:{ exfalso. assert (Q : find_node robot n <> None) by (apply find_node_in; rewrite (i_names _ _ _ I); auto). auto. }
      rewrite (i_static _ _ _ I _ _ Fk). unfold edges_of. set (l := filter (fun j => name_eqb (jt_parent j) n) hs).
      assert (L : forall j, In j l <-> In j hs /\ jt_parent j = n). { intros j. unfold l. rewrite filter_In. destruct (name_eqb_spec (jt_parent j) n); intuition congruence. }
      pose proof (nodup_children_app H n D (i_sub _ _ _ I) (i_nodup _ _ _ I) HD HnD) as NDl. fold l in NDl.
      destruct (place_children_step l H e robot n (n_X k) I (fun j Hj => proj1 (L j) Hj) NDl Hn (i_done _ _ _ I _ _ Hn Fk)) as [(e1 & r1 & E1 & I1)|(r1 & E1 & j & Hj & Aj)]; rewrite E1.
      2:{ right; right. split; auto. exists j. split; auto. apply L. auto. }
      rewrite map_map. cbn [fst].
      assert (P1 : Permutation ((D ++ [n]) ++ rev (map (fun x => jt_child x) l) ++ st) ((D ++ n :: st) ++ map jt_child l)).
      { rewrite <- !app_assoc. cbn. apply Permutation_app_head. constructor. rewrite Permutation_app_comm. apply Permutation_app_head. symmetry. apply Permutation_rev. }
      destruct (IH (rev (map (fun x => jt_child x) l) ++ st) (D ++ [n]) (H ++ l) e1 r1 I1) as [(Q1 & Q2)|Q].
      * apply (Permutation_NoDup (Permutation_sym P1)). 
        assert (NDr : NoDup (root :: map jt_child (H ++ l))). { constructor; auto. intros Q. apply (proj2 HRoot). apply in_map_iff in Q as (j & E & Hj). rewrite <- E. apply in_map. apply (i_sub _ _ _ I1). auto. }
        assert (DJ : forall c, In c (D ++ n :: st) -> ~ In c (map jt_child l)).
        { intros c H1 H2. apply PL in H1. rewrite map_app in NDr. change (NoDup ((root :: map jt_child H) ++ map jt_child l)) in NDr.
          clear -NDr H1 H2. fold (placed H) in NDr. induction (placed H) as [|x t IHt]; cbn in *; [tauto|]. inversion NDr as [|y z N1 N2]; subst. destruct H1 as [<-|H1]; [apply N1; apply in_app_iff; auto|auto]. }
        rewrite map_app in NDl. assert (NL : NoDup (map jt_child l)). { clear -NDl. induction (map jt_child H); cbn in *; auto. inversion NDl; auto. }
        clear -ND NL DJ. induction (D ++ n :: st) as [|c m IHm]; cbn; auto. inversion ND; subst. constructor; [|apply IHm; auto; intros; apply DJ; right; auto].
        rewrite in_app_iff. intros [?|?]; [auto|]. apply (DJ c); [left; auto|auto].
      * intros m. assert (PI : In m ((D ++ [n]) ++ rev (map (fun x => jt_child x) l) ++ st) <-> In m ((D ++ n :: st) ++ map jt_child l)) by (split; apply Permutation_in; [exact P1|symmetry; exact P1]). rewrite PI. rewrite in_app_iff, PL. unfold placed. rewrite map_app. cbn [In]. rewrite in_app_iff. tauto.
      * intros j Hj. rewrite in_app_iff, L, HD by auto. rewrite in_app_iff. cbn. split; intros; intuition congruence.
      * left. split; auto. rewrite app_length in Q2. cbn in Q2. lia.
      * right. exact Q.
Qed.
Lemma closed_lf H e robot : inv H e robot -> (forall j, In j hs -> In (jt_parent j) (placed H) -> In j H) -> forall n X, lf n X -> In n (placed H).
Proof. intros I C n X. induction 1 as [|j X Hj HX IH]; [left; auto|right; apply in_map; apply C; auto]. Qed.
Lemma placed_lf H e robot n : inv H e robot -> In n (placed H) -> exists X, lf n X.
Proof.
  intros I Hn. assert (HnN : In n N). { destruct Hn as [<-|Hm]; [apply HRoot|]. apply in_map_iff in Hm as (j & <- & Hj). apply (HEnds j). apply (i_sub _ _ _ I). auto. }
  destruct (i_body _ _ _ I n HnN) as (b & X & _ & _ & P & _). destruct (P Hn) as (Y & HY & _). eauto.
Qed.
(** the root is placed first *)
Lemma start_inv robot e1 : map n_name robot = N -> (forall n k, find_node robot n = Some k -> n_children k = edges_of hs n /\ n_X k = B n) -> set_frame e0 root (B root) = Done e1 -> inv [] e1 robot.
Proof.
  intros HN HK E. destruct (HBody root (proj1 HRoot)) as (b & F & R0 & Q0). destruct (set_frame_step e0 root (B root) b F (HB root)) as (e' & E' & O).
  rewrite E in E'. apply done_eq in E'. subst e'. destruct O as (A1 & A2 & A3 & A4 & A5 & A6 & A7 & A8 & A9 & A10). rewrite F in A2. cbn [option_map] in A2.
  constructor.
  - intros j [].
  - intros x [].
  - constructor.
  - exact HN.
  - intros n k Fk. apply HK. auto.
  - intros n k [<-|[]] Fk. destruct (HK _ _ Fk) as [_ ->]. constructor.
  - intros n k _ Fk. apply HK. auto.
  - intros n Hn. destruct (name_eqb_spec n root) as [->|D].
    + exists b, (B root). do 2 (split; auto). split; [|cbn; tauto]. intros _. exists (B root). split; [constructor|]. unfold pose. rewrite name_eqb_refl. reflexivity.
    + destruct (HBody n Hn) as (b' & F' & R' & Q'). exists b', (mkX vzero q_identity). split; auto. rewrite A1 by auto. split; [|split; [intros [?|[]]; congruence|auto]].
      rewrite F'. f_equal. cbn [xr xq]. rewrite <- R', <- Q'. destruct b'; reflexivity.
  - intros n Hn. apply A1. intros ->. apply Hn. apply HRoot.
  - intros j [].
  - intros m _. unfold find_hinge. rewrite A6. reflexivity.
  - repeat split; congruence.
Qed.
End Walk.
