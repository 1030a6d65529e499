(** C141: a lattice of bodies. *)
From Verif Require Import Base QuatModel QuatProofs VecModel VecProofs BvhModel BvhSpec GridModel VolModel RigidTypes RigidSpec CollModel BaryModel MassModel MassSpec MassProofs MassProofs2 Prop_Mass
  StepModel StepProofs StepProofs2 ReadySpec ReadyProofs ConSpec ApiModel ApiSpec ApiProofs RotModel RotProofs QuatMatProofs Prop_Rotation Prop_Api Prop_Api2
  ProxProofs SurfModel SurfSpec SceneModel SceneSpec SceneMesh SceneProofs SceneShape SceneBox ScenePlace Prop_Scene.
From Coq Require Import Permutation.
Open Scope R_scope.

(** ** bodies laid down in the body frame *)
Definition laid (s : shape) (t : tree) (i : nat) (bn : name) (r : vec3) (q : quat) : body :=
  mkBody bn i (q_unit q) r vzero vzero 0 vzero (Some s) false [] default_name (Some t).
Definition lay (x : item) (e : engine) : outcome :=
  andthen (create_rigid_body e (it_name x)) (fun e => andthen (connect_shape e (it_name x) (it_shape x)) (fun e =>
  andthen (set_position e (it_name x) (it_r x) false) (fun e => set_orientation e (it_name x) (it_q x) false))).
Lemma lay_ok eig sd e x s : reach eig sd sane_params e -> find_body e (it_name x) = None -> find_shape e (it_shape x) = Some s ->
  exists t, lay x e = Done (set_bodies e (e_bodies e ++ [laid s t (length (e_bodies e)) (it_name x) (it_r x) (it_q x)])).
Proof.
  destruct x as [[[bn sn] r] q]. cbn [it_name it_shape it_r it_q]. intros HR HB HS. unfold lay, create_rigid_body. cbn [it_name it_shape it_r it_q]. rewrite HB. cbn [andthen].
  set (e1 := set_bodies e (e_bodies e ++ [body_init bn (length (e_bodies e))])).
  assert (R1 : reach eig sd sane_params e1). { apply (reach_done _ _ _ (CreateBody bn) e); [auto|exact I|]. cbn. unfold create_rigid_body. rewrite HB. reflexivity. }
  assert (M1 : has_mid e1 (e_bodies e) (body_init bn (length (e_bodies e))) [] bn). { split; [reflexivity|]. split; [|split; [auto|reflexivity]]. apply (find_none b_name). exact HB. }
  destruct (connect_shape_cases e1 bn sn (reach_made _ _ _ R1)) as [(b & s' & t & Hb & Hs & EC & _)|EC].
  2:{ exfalso. destruct (C83_connect_shape_partial _ _ _ _ _ _ R1 EC) as [_ [N|N]]; apply N.
      - cbn. rewrite map_app, in_app_iff. right. left. reflexivity.
      - apply (find_some sh_name) in HS as [H1 H2]. rewrite <- H2. apply in_map. exact H1. }
  assert (s' = s). { change (find_shape e sn = Some s') in Hs. congruence. } subst s'. rewrite EC. cbn [andthen].
  rewrite (upd_mid _ _ _ _ _ _ M1). unfold e1. rewrite set_bodies_twice.
  set (b2 := with_shape (body_init bn (length (e_bodies e))) s (Some t)).
  pose proof (keep_mid _ _ _ _ _ b2 M1 eq_refl) as M2. unfold e1 in M2. rewrite set_bodies_twice in M2. clear R1 M1 EC Hb Hs.
  unfold set_position. rewrite (found_mid _ _ _ _ _ M2). cbn [andthen]. rewrite (upd_mid _ _ _ _ _ _ M2), set_bodies_twice.
  match goal with |- context [with_pose ?b0 ?r0 ?q0] => set (b3 := with_pose b0 r0 q0) end.
  pose proof (keep_mid _ _ _ _ _ b3 M2 eq_refl) as M3. rewrite set_bodies_twice in M3.
  unfold set_orientation. rewrite (found_mid _ _ _ _ _ M3). rewrite (upd_mid _ _ _ _ _ _ M3), set_bodies_twice.
  exists t. reflexivity.
Qed.
Lemma lay_reach eig sd ok e x e' : reach eig sd ok e -> lay x e = Done e' -> reach eig sd ok e'.
Proof.
  intros HR H. unfold lay in H. apply andthen_done in H as (e1 & H1 & H). apply andthen_done in H as (e2 & H2 & H). apply andthen_done in H as (e3 & H3 & H).
  apply (reach_done _ _ _ (SetOrientation (it_name x) (it_q x) false) e3); [|exact I|exact H]. apply (reach_done _ _ _ (SetPosition (it_name x) (it_r x) false) e2); [|exact I|exact H3].
  apply (reach_done _ _ _ (ConnectShape (it_name x) (it_shape x)) e1); [|exact I|exact H2]. apply (reach_done _ _ _ (CreateBody (it_name x)) e); [auto|exact I|exact H1].
Qed.
Definition laid_down (e : engine) (x : item) (b : body) : Prop := exists s t i, find_shape e (it_shape x) = Some s /\ b = laid s t i (it_name x) (it_r x) (it_q x).
Lemma lay_all_ok eig sd : forall l e, reach eig sd sane_params e -> (forall x, In x l -> exists s, find_shape e (it_shape x) = Some s) ->
  NoDup (map it_name l) -> (forall x, In x l -> ~ In (it_name x) (map b_name (e_bodies e))) ->
  exists bs, each lay l e = Done (set_bodies e (e_bodies e ++ bs)) /\ Forall2 (laid_down e) l bs /\ reach eig sd sane_params (set_bodies e (e_bodies e ++ bs)).
Proof.
  induction l as [|x l IH]; intros e HR HS ND NI.
  - exists []. rewrite app_nil_r, set_bodies_self. split; [reflexivity|]. split; [constructor|auto].
  - cbn [each]. assert (HB : find_body e (it_name x) = None). { apply (find_none b_name). apply (NI x). left; reflexivity. }
    destruct (HS x (or_introl eq_refl)) as (s & Es).
    destruct (lay_ok eig sd e x s HR HB Es) as (t & EP). rewrite EP. cbn [andthen].
    set (b := laid s t (length (e_bodies e)) (it_name x) (it_r x) (it_q x)) in *. set (e1 := set_bodies e (e_bodies e ++ [b])) in *.
    assert (R1 : reach eig sd sane_params e1) by (eapply lay_reach; [exact HR|exact EP]).
    destruct (IH e1 R1) as (bs & E & F & R3).
    + intros y Hy. apply (HS y). right; auto.
    + inversion ND; auto.
    + intros y Hy. cbn. rewrite map_app, in_app_iff. intros [H|[H|[]]]; [exact (NI y (or_intror Hy) H)|].
      cbn in ND. inversion ND; subst. apply H2. change (it_name x = it_name y) in H. rewrite H. apply in_map. exact Hy.
    + rewrite E. unfold e1 in *. cbn [set_bodies e_bodies] in *. rewrite <- app_assoc in *. exists (b :: bs). split; [reflexivity|]. split; [|exact R3].
      constructor; auto. exists s, t, (length (e_bodies e)). split; [exact Es|reflexivity].
Qed.
(** bodies with shapes get their type, material and mass *)
Lemma finish_bodies_ok mat density : forall bs e pre, e_bodies e = pre ++ bs -> (forall b, In b bs -> exists s, b_shape b = Some s) -> NoDup (map b_name (e_bodies e)) -> exist_material (e_lib e) mat = true ->
  exists bs', finish_all (map b_name bs) mat density e = Done (set_bodies e (pre ++ bs')) /\ Forall2 (fun b b' => exists s, b_shape b = Some s /\ b' = finished s false mat density b) bs bs'.
Proof.
  induction bs as [|b bs IH]; intros e pre EB HS ND HM.
  - exists []. rewrite <- EB, set_bodies_self. split; [reflexivity|constructor].
  - destruct (HS b (or_introl eq_refl)) as (s & Es).
    assert (M : has_mid e pre b bs (b_name b)).
    { split; [exact EB|]. rewrite EB, map_app in ND. cbn [map] in ND. apply NoDup_remove_2 in ND. rewrite in_app_iff in ND. split; [tauto|]. split; [tauto|reflexivity]. }
    unfold finish_all. cbn [map each]. pose proof (finish_ok e _ _ _ _ false mat density s M Es HM) as EF. cbn [type_name] in EF. rewrite EF. cbn [andthen].
    set (b' := finished s false mat density b) in *.
    destruct (IH (set_bodies e (pre ++ b' :: bs)) (pre ++ [b'])) as (bs' & E & F').
    + cbn. rewrite <- app_assoc. reflexivity.
    + intros y Hy. apply HS. right; auto.
    + cbn. rewrite EB, map_app in ND. rewrite map_app. exact ND.
    + exact HM.
    + unfold finish_all in E. rewrite E, set_bodies_twice, <- app_assoc. exists (b' :: bs'). split; [reflexivity|]. constructor; auto. exists s. split; [exact Es|reflexivity].
Qed.

(** ** the order of the cells *)
Lemma nth_flat_map {A B} (f : A -> list B) (n : nat) : forall l i r a, (forall a, In a l -> length (f a) = n) -> nth_error l i = Some a -> (r < n)%nat ->
  nth_error (flat_map f l) (i * n + r) = nth_error (f a) r.
Proof.
  induction l as [|x l IH]; intros i r a HL Hi Hr; [destruct i; discriminate|]. cbn [flat_map]. pose proof (HL x (or_introl eq_refl)) as Lx. destruct i as [|i].
  - cbn in Hi. assert (x = a) by congruence. subst x. cbn [Nat.mul Nat.add]. apply nth_error_app1. lia.
  - rewrite nth_error_app2 by nia. replace (S i * n + r - length (f x))%nat with (i * n + r)%nat by nia. apply IH; auto. intros b Hb. apply HL. right; auto.
Qed.
Lemma flat_map_len {A B} (f : A -> list B) (n : nat) l : (forall a, In a l -> length (f a) = n) -> length (flat_map f l) = (length l * n)%nat.
Proof. induction l as [|x l IH]; intros H; cbn; auto. rewrite app_length. rewrite (H x (or_introl eq_refl)), IH by (intros; apply H; right; auto). reflexivity. Qed.
Lemma seq_nth_error K k : (k < K)%nat -> nth_error (seq 0 K) k = Some k.
Proof. intros H. rewrite (nth_error_nth' (seq 0 K) 0%nat) by (rewrite seq_length; auto). rewrite seq_nth by auto. reflexivity. Qed.
Lemma cells_length I J K : length (cells I J K) = (I * J * K)%nat.
Proof.
  unfold cells. rewrite (flat_map_len _ (J * K)%nat); [rewrite seq_length; lia|]. intros i _. rewrite (flat_map_len _ K); [rewrite seq_length; reflexivity|]. intros j _. rewrite map_length, seq_length. reflexivity.
Qed.
Lemma cells_nth I J K i j k : (i < I)%nat -> (j < J)%nat -> (k < K)%nat -> nth_error (cells I J K) ((i * J + j) * K + k) = Some (i, j, k).
Proof.
  intros Hi Hj Hk. unfold cells. replace ((i * J + j) * K + k)%nat with (i * (J * K) + (j * K + k))%nat by ring.
  rewrite (nth_flat_map _ (J * K)%nat (seq 0 I) i (j * K + k) i); [|intros a _; rewrite (flat_map_len _ K); [rewrite seq_length; reflexivity|intros; rewrite map_length, seq_length; reflexivity]|apply seq_nth_error; auto|nia].
  rewrite (nth_flat_map _ K (seq 0 J) j k j); [|intros; rewrite map_length, seq_length; reflexivity|apply seq_nth_error; auto|auto].
  rewrite nth_error_map, seq_nth_error by auto. reflexivity.
Qed.
Lemma number_nth {A} (l : list A) m a : nth_error l m = Some a -> nth_error (number l) m = Some (m, a).
Proof.
  intros H. assert (L : (m < length l)%nat) by (apply nth_error_Some; congruence). unfold number.
  assert (G : forall (k : list nat) (l : list A) m x a, nth_error k m = Some x -> nth_error l m = Some a -> nth_error (combine k l) m = Some (x, a)).
  { clear. induction k as [|y k IH]; intros l m x a Hk Hl; [destruct m; discriminate|]. destruct l as [|b l]; [destruct m; discriminate|]. destruct m as [|m]; cbn in *; [congruence|auto]. }
  apply G; auto. apply seq_nth_error; auto.
Qed.
Lemma number_in {A} (l : list A) m a : In (m, a) (number l) -> nth_error l m = Some a.
Proof.
  intros H. unfold number in H. apply In_nth_error in H as (i & Hi). 
  assert (G : forall s (l : list A) i, nth_error (combine (seq s (length l)) l) i = Some (m, a) -> m = (s + i)%nat /\ nth_error l i = Some a).
  { clear. intros s l. revert s. induction l as [|b l IH]; intros s i H; cbn in H; [destruct i; discriminate|]. destruct i as [|i]; cbn in H.
    - split; [assert (s = m) by congruence; lia|cbn; congruence].
    - apply IH in H as [-> H]. split; [lia|exact H]. }
  apply G in Hi as [-> Hi]. exact Hi.
Qed.
Lemma number_map {A B} (f : nat * A -> B) (g : nat -> B) (l : list A) : (forall m a, f (m, a) = g m) -> map f (number l) = map g (seq 0 (length l)).
Proof.
  intros H. unfold number. generalize 0%nat. induction l as [|a l IH]; intros s; cbn; auto. rewrite H. f_equal. apply IH.
Qed.

Lemma f2_hit {A B} {P : A -> B -> Prop} {l l' m a} : Forall2 P l l' -> nth_error l m = Some a -> exists b, nth_error l' m = Some b /\ P a b.
Proof. intros F. revert m. induction F as [|x y l l' H F IH]; intros m Hm; [destruct m; discriminate|]. destruct m as [|m]; cbn in *; [exists y; split; [reflexivity|congruence]|auto]. Qed.
(** ** the lattice *)
(** the centre of cell (i,j,k) of a w x h x d box cut into I x J x K cells *)
Definition cell_centre (w h d : R) (I J K i j k : nat) : vec3 :=
  mkV ((INR i + 1/2) * (w / INR I)) ((INR j + 1/2) * (h / INR J)) ((INR k + 1/2) * (d / INR K)).
Lemma cell_point_centre w h d I J K i j k : cell_point w h d I J K (i, j, k) = cell_centre w h d I J K i j k.
Proof. unfold cell_point, cell_centre, vadd, vdiv; cbn. unfold Rdiv; f_equal; ring. Qed.
Theorem C141_lattice eig sd e fresh rnd r q shapes w h d I J K density mat random q_body : reach eig sd sane_params e -> new_names e fresh -> exist_material (e_lib e) mat = true ->
  (0 < I)%nat -> (0 < J)%nat -> (0 < K)%nat -> shapes <> [] -> (forall sn, In sn shapes -> In sn (map sh_name (e_shapes e))) ->
  exists e' names, create_lattice fresh rnd r q shapes w h d I J K density mat random q_body e = (Done e', names) /\ reach eig sd sane_params e' /\
    adds e e' names /\ e_hinges e' = e_hinges e /\ e_shapes e' = e_shapes e /\ length names = (I * J * K)%nat /\ NoDup names /\
    (forall i j k, (i < I)%nat -> (j < J)%nat -> (k < K)%nat -> let m := ((i * J + j) * K + k)%nat in
       exists n b sn s, nth_error names m = Some n /\ find_body e' n = Some b /\
         nth_error shapes ((i + j + k) mod length shapes) = Some sn /\ find_shape e sn = Some s /\ b_shape b = Some s /\
         b_r b = at_pose r q (cell_centre w h d I J K i j k) /\
         b_q b = q_unit (q_prod q (if random then rnd m else match q_body with Some p => p | None => q_identity end)) /\
         at_rest e' n false mat (sh_mass s * density)) /\
    (set_up e -> density <> 0 -> (forall sn s, In sn shapes -> find_shape e sn = Some s -> corner_nonzero s /\ sh_mass s <> 0 /\ vx (sh_inertia s) <> 0 /\ vy (sh_inertia s) <> 0 /\ vz (sh_inertia s) <> 0) -> set_up e').
Proof.
  intros HR (HI & HF) HM PI PJ PK NS HSH.
  assert (LS : (0 < length shapes)%nat) by (destruct shapes; [congruence|cbn; lia]).
  set (choice := fun c : nat * nat * nat => let '(i, j, k) := c in nth ((i + j + k) mod length shapes) shapes []).
  assert (CH : forall i j k, nth_error shapes ((i + j + k) mod length shapes) = Some (choice (i, j, k))).
  { intros i j k. apply nth_error_nth'. apply Nat.mod_upper_bound. lia. }
  assert (CIN : forall c, In (choice c) shapes). { intros [[i j] k]. eapply nth_error_In. apply CH. }
  set (it := fun mc : nat * (nat * nat * nat) => let '(m, c) := mc in (fresh m, choice c, vadd (q_rotate q (cell_point w h d I J K c)) r, q_prod q (cell_turn random rnd q_body m)) : item).
  set (l := map it (number (cells I J K))).
  assert (EN : map it_name l = map fresh (seq 0 (I * J * K))). { unfold l. rewrite map_map, (number_map _ fresh); [rewrite cells_length; reflexivity|]. intros m c. reflexivity. }
  assert (ND : NoDup (map fresh (seq 0 (I * J * K)))). { apply FinFun.Injective_map_NoDup; [|apply seq_NoDup]. intros a b H. exact (HI a b H). }
  assert (NI : forall x, In x l -> ~ In (it_name x) (map b_name (e_bodies e))). { intros x Hx. apply in_map_iff in Hx as ([m c] & <- & _). exact (proj1 (HF m)). }
  assert (FSH : forall sn, In sn shapes -> exists s, find_shape e sn = Some s). { intros sn Hs. unfold find_shape. destruct (find _ (e_shapes e)) as [s|] eqn:E; eauto. exfalso. apply (find_none sh_name) in E. auto. }
  destruct (lay_all_ok eig sd l e HR) as (bs & E & F & R1).
  { intros x Hx. apply in_map_iff in Hx as ([m c] & <- & _). apply FSH. apply CIN. }
  { rewrite EN. exact ND. }
  { exact NI. }
  assert (LN : map b_name bs = map it_name l). { clear - F. induction F as [|x b l bs (s & t & i & _ & ->) F IH]; cbn; auto. f_equal. exact IH. }
  destruct (finish_bodies_ok mat density bs (set_bodies e (e_bodies e ++ bs)) (e_bodies e) eq_refl) as (bs' & E' & F').
  { intros b Hb. clear - F Hb. induction F as [|x b0 l bs (s & t & i & _ & ->) F IH]; [destruct Hb|]. destruct Hb as [<-|Hb]; [exists s; reflexivity|auto]. }
  { apply (reach_names eig sd sane_params). exact R1. }
  { exact HM. }
  rewrite set_bodies_twice in E'. set (e' := set_bodies e (e_bodies e ++ bs')) in *.
  assert (R2 : reach eig sd sane_params e') by (eapply finish_all_reach; [exact R1|exact E']).
  assert (LN' : map b_name bs' = map it_name l). { rewrite <- LN. clear - F'. induction F' as [|b b' l l' (s & _ & ->) F IH]; cbn; auto. f_equal. exact IH. }
  assert (ALL : Forall2 (fun x b' => exists s t i, find_shape e (it_shape x) = Some s /\ b' = finished s false mat density (laid s t i (it_name x) (it_r x) (it_q x))) l bs').
  { clear - F F'. revert bs' F'. induction F as [|x b l bs (s & t & i & Es & ->) F IH]; intros bs' F'; inversion F' as [|? b' ? ? (s' & Es' & ->) F'']; subst; constructor; auto. cbn in Es'. apply some_eq in Es'. subst s'. exists s, t, i. split; [exact Es|reflexivity]. }
  exists e', (map fresh (seq 0 (I * J * K))).
  split.
  { unfold create_lattice. destruct (Nat.eqb_spec I 0); [lia|]. destruct (Nat.eqb_spec J 0); [lia|]. destruct (Nat.eqb_spec K 0); [lia|]. destruct (Nat.eqb_spec (length shapes) 0); [lia|]. cbn [orb].
    apply f_equal2; [|reflexivity]. rewrite LN, EN in E'. transitivity (andthen (each lay l e) (finish_all (map fresh (seq 0 (I * J * K))) mat density)); [|rewrite E; exact E'].
    apply (f_equal2 andthen); [|reflexivity]. unfold l. rewrite each_map. apply each_ext. intros [m [[i j] k]] e0 _. unfold cell_shape. rewrite CH. reflexivity. }
  split; [exact R2|]. split.
  { pose proof (adds_bodies e bs' []) as AB. rewrite app_nil_r in AB. replace (set_shapes e (e_shapes e)) with e in AB by (destruct e; reflexivity). rewrite LN', EN in AB. apply AB.
    intros b Hb. apply (in_map b_name) in Hb. rewrite LN' in Hb. apply in_map_iff in Hb as (x & <- & Hx). exact (NI x Hx). }
  split; [reflexivity|]. split; [reflexivity|]. split; [rewrite map_length, seq_length; reflexivity|]. split; [exact ND|]. split.
  - intros i j k Hi Hj Hk m. assert (NM : nth_error l m = Some (it (m, (i, j, k)))). { unfold l. pose proof (number_nth _ _ _ (cells_nth I J K i j k Hi Hj Hk)) as Z. fold m in Z. rewrite nth_error_map, Z. reflexivity. }
    clearbody m.
    assert (exists b, nth_error bs' m = Some b /\ exists s t ix, find_shape e (choice (i, j, k)) = Some s /\ b = finished s false mat density (laid s t ix (fresh m) (vadd (q_rotate q (cell_point w h d I J K (i, j, k))) r) (q_prod q (cell_turn random rnd q_body m)))) as (b & Hb & s & t & ix & Es & Eb).
    { destruct (f2_hit ALL NM) as (b & H1 & H2). exists b. split; [exact H1|exact H2]. }
    assert (FB : find_body e' (fresh m) = Some b). { replace (fresh m) with (b_name b) by (rewrite Eb; reflexivity). apply found_in; [apply (reach_names eig sd sane_params); exact R2|]. cbn. apply in_or_app. right. eapply nth_error_In. exact Hb. }
    exists (fresh m), b, (choice (i, j, k)), s. split.
    { rewrite nth_error_map, seq_nth_error; [reflexivity|]. assert (m < length l)%nat by (apply nth_error_Some; congruence). unfold l in H. rewrite map_length in H. unfold number in H. rewrite combine_length, seq_length, cells_length in H. lia. }
    split; [exact FB|]. split; [apply CH|]. split; [exact Es|]. split; [rewrite Eb; reflexivity|]. split; [rewrite Eb, <- cell_point_centre; reflexivity|]. split; [rewrite Eb; reflexivity|].
    exists b. split; [exact FB|]. rewrite Eb. cbn. repeat split.
  - intros (U1 & U2 & U3) HD HC.
    assert (G : forall b, In b bs' -> exists c s t i n r q, find_shape e (choice c) = Some s /\ b = finished s false mat density (laid s t i n r q)).
    { assert (Q : forall x, In x l -> exists c, it_shape x = choice c). { intros x Hx. apply in_map_iff in Hx as ([m c] & <- & _). exists c. reflexivity. }
      clear - ALL Q. induction ALL as [|x b L bs (s & t & i & Es & Eb) F IH]; intros b' Hb'; [destruct Hb'|]. destruct Hb' as [<-|Hb'].
      - destruct (Q x (or_introl eq_refl)) as (c & Ec). rewrite Ec in Es. exists c, s, t, i, (it_name x), (it_r x), (it_q x). split; [exact Es|exact Eb].
      - apply IH; auto. intros y Hy. apply Q. right; auto. }
    split; [|split; [|exact U3]].
    + cbn. intros b Hb. apply in_app_or in Hb as [Hb|Hb]; [exact (U1 b Hb)|]. destruct (G b Hb) as (c & s & t & i & n & r0 & q0 & Es & ->). exists s. split; [reflexivity|]. apply (HC _ s (CIN c) Es).
    + cbn. intros b Hb Hf. apply in_app_or in Hb as [Hb|Hb]; [exact (U2 b Hb Hf)|]. destruct (G b Hb) as (c & s & t & i & n & r0 & q0 & Es & ->). destruct (HC _ s (CIN c) Es) as (_ & M0 & I0 & I1 & I2). cbn.
      split; [apply Rmult_integral_contrapositive; auto|]. split; [|split]; (apply Rmult_integral_contrapositive; split; [auto|auto]).
Qed.
(** the component of a turned vector along any unit direction is at most its length *)
Lemma turned_bound q v u : is_unit q -> vdot u u = 1 -> vdot u (q_rotate q v) <= vnorm v.
Proof.
  intros HU Hu. assert (N : vdot (q_rotate q v) (q_rotate q v) = vdot v v). { rewrite q_rotate_dot. unfold is_unit in HU. rewrite HU. ring. }
  pose proof (ProxProofs.cauchy u (q_rotate q v)) as C. assert (E1 : vnorm u = 1) by (unfold vnorm; rewrite Hu; apply sqrt_1).
  assert (E2 : vnorm (q_rotate q v) = vnorm v) by (unfold vnorm; rewrite N; reflexivity). rewrite E1, E2 in C. lra.
Qed.
(** bodies that are smaller than their cells stay inside them: no two of them share a point, however they are turned *)
Theorem C141_apart eig sd e fresh rnd r q shapes w h d I J K density mat random q_body rho e' names : reach eig sd sane_params e -> new_names e fresh -> exist_material (e_lib e) mat = true ->
  (0 < I)%nat -> (0 < J)%nat -> (0 < K)%nat -> shapes <> [] -> (forall sn, In sn shapes -> In sn (map sh_name (e_shapes e))) ->
  is_unit q -> 2 * rho < w / INR I -> 2 * rho < h / INR J -> 2 * rho < d / INR K ->
  (forall sn s v, In sn shapes -> find_shape e sn = Some s -> In v (sh_V s) -> vnorm v <= rho) ->
  create_lattice fresh rnd r q shapes w h d I J K density mat random q_body e = (Done e', names) ->
  (forall i j k n p, (i < I)%nat -> (j < J)%nat -> (k < K)%nat -> nth_error names ((i * J + j) * K + k) = Some n -> occupies e' n p ->
     let c := cell_centre w h d I J K i j k in let x := q_rotate (q_conj q) (vsub p r) in
     Rabs (vx x - vx c) <= rho /\ Rabs (vy x - vy c) <= rho /\ Rabs (vz x - vz c) <= rho) /\
  (forall a b n m p, a <> b -> nth_error names a = Some n -> nth_error names b = Some m -> occupies e' n p -> ~ occupies e' m p).
Proof.
  intros HR HF HM PI PJ PK NS HSH HQ RW RH RD HV H.
  destruct (C141_lattice eig sd e fresh rnd r q shapes w h d I J K density mat random q_body HR HF HM PI PJ PK NS HSH) as (e1 & ns & E & _ & _ & _ & _ & LN & ND & HS & _).
  rewrite E in H. assert (e1 = e') by congruence. assert (ns = names) by congruence. subst e1 ns. clear H E.
  assert (IN : forall i j k n p, (i < I)%nat -> (j < J)%nat -> (k < K)%nat -> nth_error names ((i * J + j) * K + k) = Some n -> occupies e' n p ->
    let c := cell_centre w h d I J K i j k in let x := q_rotate (q_conj q) (vsub p r) in Rabs (vx x - vx c) <= rho /\ Rabs (vy x - vy c) <= rho /\ Rabs (vz x - vz c) <= rho).
  { intros i j k n p Hi Hj Hk Hn (W & T & (b & s & FB & BS & -> & ->) & HO) c x.
    destruct (HS i j k Hi Hj Hk) as (n' & b' & sn & s' & Hn' & FB' & SN & FS & BS' & ER & EQ & _). rewrite Hn in Hn'. apply some_eq in Hn'. subst n'. rewrite FB in FB'. apply some_eq in FB'. subst b'. rewrite BS in BS'. apply some_eq in BS'. subst s'.
    assert (BU : is_unit (b_q b)) by (rewrite EQ; apply q_unit_is_unit).
    assert (D : forall u, vdot u u = 1 -> vdot u (vsub x c) <= rho).
    { intros u Hu. assert (L : vdot (q_rotate q u) p <= vdot (q_rotate q u) (b_r b) + rho).
      { apply HO. intros v Hv. apply in_map_iff in Hv as (y & <- & Hy). unfold body_to_world. 
        assert (UU : vdot (q_rotate q u) (q_rotate q u) = 1). { rewrite q_rotate_dot. unfold is_unit in HQ. rewrite HQ, Hu. ring. }
        pose proof (turned_bound (b_q b) y (q_rotate q u) BU UU) as TB. pose proof (HV sn s y (nth_error_In _ _ SN) FS Hy) as NV.
        replace (vdot (q_rotate q u) (vadd (q_rotate (b_q b) y) (b_r b))) with (vdot (q_rotate q u) (q_rotate (b_q b) y) + vdot (q_rotate q u) (b_r b)) by (unfold vdot, vadd; cbn; ring). lra. }
      fold c in ER. rewrite ER in L. unfold at_pose in L.
      assert (QX : vdot u x = vdot (q_rotate q u) (vsub p r)). { unfold x. rewrite <- (q_rotate_inv_r q (vsub p r) HQ) at 2. rewrite q_rotate_dot. unfold is_unit in HQ. rewrite HQ. ring. }
      assert (QC : vdot u c = vdot (q_rotate q u) (q_rotate q c)). { rewrite q_rotate_dot. unfold is_unit in HQ. rewrite HQ. ring. }
      replace (vdot u (vsub x c)) with (vdot u x - vdot u c) by (unfold vdot, vsub; cbn; ring). rewrite QX, QC.
      replace (vdot (q_rotate q u) (vadd (q_rotate q c) r)) with (vdot (q_rotate q u) (q_rotate q c) + vdot (q_rotate q u) r) in L by (unfold vdot, vadd; cbn; ring).
      replace (vdot (q_rotate q u) (vsub p r)) with (vdot (q_rotate q u) p - vdot (q_rotate q u) r) by (unfold vdot, vsub; cbn; ring). lra. }
    clearbody x c. pose proof (D (mkV 1 0 0) ltac:(unfold vdot; cbn; ring)) as D1. pose proof (D (mkV (-1) 0 0) ltac:(unfold vdot; cbn; ring)) as D2. pose proof (D (mkV 0 1 0) ltac:(unfold vdot; cbn; ring)) as D3.
    pose proof (D (mkV 0 (-1) 0) ltac:(unfold vdot; cbn; ring)) as D4. pose proof (D (mkV 0 0 1) ltac:(unfold vdot; cbn; ring)) as D5. pose proof (D (mkV 0 0 (-1)) ltac:(unfold vdot; cbn; ring)) as D6.
    unfold vdot, vsub in *. cbn [vx vy vz] in *. split; [|split]; apply Rabs_le; lra. }
  split; [exact IN|].
  intros a b n m p Hab Hn Hm Hp Hq.
  assert (DEC : forall a n, nth_error names a = Some n -> exists i j k, (i < I)%nat /\ (j < J)%nat /\ (k < K)%nat /\ a = ((i * J + j) * K + k)%nat).
  { intros a0 n0 H0. assert (L : (a0 < I * J * K)%nat) by (rewrite <- LN; apply nth_error_Some; congruence).
    exists (a0 / K / J)%nat, ((a0 / K) mod J)%nat, (a0 mod K)%nat. pose proof (Nat.div_mod a0 K ltac:(lia)) as D1. pose proof (Nat.div_mod (a0 / K) J ltac:(lia)) as D2.
    split; [|split; [apply Nat.mod_upper_bound; lia|split; [apply Nat.mod_upper_bound; lia|lia]]].
    apply Nat.div_lt_upper_bound; [lia|]. apply Nat.div_lt_upper_bound; [lia|]. lia. }
  destruct (DEC a n Hn) as (i & j & k & Hi & Hj & Hk & ->). destruct (DEC b m Hm) as (i' & j' & k' & Hi' & Hj' & Hk' & ->).
  pose proof (IN i j k n p Hi Hj Hk Hn Hp) as A. pose proof (IN i' j' k' m p Hi' Hj' Hk' Hm Hq) as B. cbv zeta in A, B. destruct A as (A1 & A2 & A3), B as (B1 & B2 & B3).
  assert (SAME : forall (s t : nat) (x u : R), 2 * rho < u -> Rabs (x - (INR s + 1 / 2) * u) <= rho -> Rabs (x - (INR t + 1 / 2) * u) <= rho -> s = t).
  { assert (LT : forall (s t : nat) (x u : R), (s < t)%nat -> 2 * rho < u -> Rabs (x - (INR s + 1 / 2) * u) <= rho -> Rabs (x - (INR t + 1 / 2) * u) <= rho -> False).
    { intros s t x u L U P Q. pose proof (Rabs_pos (x - (INR s + 1 / 2) * u)). pose proof (Rle_abs (- (x - (INR t + 1 / 2) * u))) as Q1. rewrite Rabs_Ropp in Q1. pose proof (Rle_abs (x - (INR s + 1 / 2) * u)) as P1. assert (INR s + 1 <= INR t) by (rewrite <- S_INR; apply le_INR; lia). nra. }
    intros s t x u U P Q. destruct (Nat.lt_trichotomy s t) as [L|[->|L]]; [exfalso; exact (LT s t x u L U P Q)|reflexivity|exfalso; exact (LT t s x u L U Q P)]. }
  unfold cell_centre in *. cbn [vx vy vz] in *. pose proof (SAME _ _ _ _ RW A1 B1). pose proof (SAME _ _ _ _ RH A2 B2). pose proof (SAME _ _ _ _ RD A3 B3). subst. apply Hab. reflexivity.
Qed.

(** a lattice of 2 x 2 x 2 boxes *)
Example C141_nonvacuous sd rnd : exists e s, reach diag_eig sd sane_params e /\ new_names e (fun i => [S i]) /\ find_shape e [0]%nat = Some s /\
  exists e' names, create_lattice (fun i => [S i]) rnd vzero q_identity [[0]%nat] 4 4 4 2 2 2 1 default_name true None e = (Done e', names) /\ length names = 8%nat /\
    exists n b, nth_error names 7 = Some n /\ find_body e' n = Some b /\ b_r b = mkV 3 3 3.
Proof.
  assert (R0 : reach diag_eig sd sane_params create_engine). { apply reach_new. split; [reflexivity|]. cbn. split; [lia|lra]. }
  destruct (make_one_shape diag_eig sd create_engine [0]%nat (boxV 1 1 1) (boxT 1 1 1) diag_eig_diagonal R0 ltac:(cbn; lia) ltac:(cbn; tauto) (box_good 1 1 1 ltac:(lra) ltac:(lra) ltac:(lra))) as (s & _ & R1 & EN & FS & _).
  set (e := set_shapes create_engine (e_shapes create_engine ++ [s])) in *. exists e, s.
  assert (NN : new_names e (fun i => [S i])). { split; [intros i j H; injection H; auto|]. intros i. cbn. split; [tauto|]. intros [H|[]]. rewrite EN in H. discriminate. }
  split; [exact R1|]. split; [exact NN|]. split; [exact FS|].
  destruct (C141_lattice diag_eig sd e (fun i => [S i]) rnd vzero q_identity [[0]%nat] 4 4 4 2 2 2 1 default_name true None R1 NN eq_refl ltac:(lia) ltac:(lia) ltac:(lia) ltac:(discriminate)) as (e' & names & E & _ & _ & _ & _ & LN & _ & HS & _).
  { intros sn [<-|[]]. cbn. left. exact EN. }
  exists e', names. split; [exact E|]. split; [exact LN|]. destruct (HS 1%nat 1%nat 1%nat ltac:(lia) ltac:(lia) ltac:(lia)) as (n & b & _ & _ & H1 & H2 & _ & _ & _ & H3 & _).
  exists n, b. split; [exact H1|]. split; [exact H2|]. rewrite H3. unfold at_pose. rewrite q_rotate_id. unfold cell_centre, vadd, vzero. cbn. f_equal; lra.
Qed.
Print Assumptions C141_lattice.
Print Assumptions C141_apart.
