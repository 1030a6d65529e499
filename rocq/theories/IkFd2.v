(** The finite difference Hessian, and limits of the finite differences. *)
From Coquelicot Require Import Coquelicot.
From Verif Require Import Base VecModel QuatModel QuatProofs BvhModel BvhProofs IkModel IkSpec IkProofs IkPose IkDeriv IkJac IkGrad IkHess IkFd FdLimits IkCont.
Open Scope R_scope.

(** a loop that appends one result per index and threads a state *)
Lemma append_loop {A S} (step : S -> nat -> option (A * S)) (P : S -> Prop) (val : nat -> A) (N : nat) :
  (forall s i, P s -> (i < N)%nat -> exists s', step s i = Some (val i, s') /\ P s') ->
  forall s0, P s0 -> exists s', loop (fun st i => match step (snd st) i with Some (d, s') => Some (fst st ++ [d], s') | None => None end) (seq 0 N) ([], s0) = Some (map val (seq 0 N), s') /\ P s'.
Proof.
  intros HS s0 H0.
  assert (G : forall n a acc s, P s -> (a + n <= N)%nat -> exists s', loop (fun st i => match step (snd st) i with Some (d, s') => Some (fst st ++ [d], s') | None => None end) (seq a n) (acc, s) = Some (acc ++ map val (seq a n), s') /\ P s').
  { induction n as [|n IH]; intros a acc s Hs L; cbn [seq loop map]; [exists s; rewrite app_nil_r; auto|].
    cbn [fst snd]. destruct (HS s a Hs ltac:(lia)) as (s1 & E1 & P1). rewrite E1. destruct (IH (Datatypes.S a) (acc ++ [val a]) s1 P1 ltac:(lia)) as (s' & E & P'). exists s'. rewrite E, <- app_assoc. auto. }
  destruct (G N 0%nat [] s0 H0 ltac:(lia)) as (s' & E & P'). exists s'. auto.
Qed.

Section Limits.
Context (cs : list chain) (S0 : skeleton) (HT : bone_tree S0) (HC : codes_ok S0) (HN : S0 <> []) (HS : forall c, In c cs -> serial S0 c).

Definition angle_at (i : nat) : R := match nth_error S0 (i / 3) with Some b => ang (i mod 3) b | None => 0 end.
Definition obj1 (i : nat) (x : R) : R := obj cs (vary S0 (i / 3) (i mod 3) x).
Definition obj2 (i j : nat) (x y : R) : R := obj cs (vary2 S0 (i / 3) (i mod 3) (j / 3) (j mod 3) x y).
Definition fdv1 (h : R) (i : nat) : R := (obj1 i (angle_at i + h) - obj1 i (angle_at i - h)) / (2 * h).
Definition fdv2 (h : R) (i j : nat) : R :=
  if Nat.eqb i j then (obj1 i (angle_at i + h) - 2 * obj cs S0 + obj1 i (angle_at i - h)) / (h * h)
  else (obj2 i j (angle_at i + h) (angle_at j + h) - obj2 i j (angle_at i + h) (angle_at j - h) - obj2 i j (angle_at i - h) (angle_at j + h) + obj2 i j (angle_at i - h) (angle_at j - h)) / (4 * h * h).

Lemma idx_ok i : (i < length S0 * 3)%nat -> exists b, nth_error S0 (i / 3) = Some b /\ (i mod 3 < 3)%nat /\ i = (i / 3 * 3 + i mod 3)%nat /\ angle_at i = ang (i mod 3) b.
Proof.
  intros H. destruct (idx_split i) as [E L]. destruct (nth_error S0 (i / 3)) as [b|] eqn:Eb; [|apply nth_error_None in Eb; lia].
  exists b. repeat split; auto. unfold angle_at. rewrite Eb. auto.
Qed.

Lemma fd_gradient_list h : h <> 0 -> exists s', fd_gradient cs S0 h = Some (map (fdv1 h) (seq 0 (length S0 * 3)), s') /\ same_joints S0 s'.
Proof.
  intros Hh. unfold fd_gradient. apply (append_loop (fun s i => fd_first cs s i h) (same_joints S0) (fdv1 h)); [|reflexivity].
  intros s i SJ Hi. destruct (idx_ok i Hi) as (b & Hb & L & E & A).
  destruct (fd_first_ok cs S0 HT HC HN HS s (i / 3) (i mod 3) h b SJ L Hb Hh) as (s' & E' & J'). rewrite <- E in E'. exists s'. split; auto. rewrite E'. unfold fdv1, obj1. rewrite A. auto.
Qed.
Lemma fd_hessian_list h : h <> 0 -> exists s', fd_hessian cs S0 h = Some (map (fun i => map (fdv2 h i) (seq 0 (length S0 * 3))) (seq 0 (length S0 * 3)), s') /\ same_joints S0 s'.
Proof.
  intros Hh. unfold fd_hessian. apply (append_loop (fun s i => fd_hessian_row cs s (length S0 * 3) i h) (same_joints S0) (fun i => map (fdv2 h i) (seq 0 (length S0 * 3)))); [|reflexivity].
  intros s i SJ Hi. unfold fd_hessian_row. apply (append_loop (fun s j => fd_second cs s i j h) (same_joints S0) (fdv2 h i)); auto.
  intros s1 j SJ1 Hj. destruct (idx_ok i Hi) as (b & Hb & L & E & A). destruct (idx_ok j Hj) as (d & Hd & L' & E' & A'). unfold fdv2.
  destruct (Nat.eqb_spec i j) as [<-|D].
  - destruct (fd_second_diag_ok cs S0 HT HC HN HS s1 (i / 3) (i mod 3) h b SJ1 L Hb Hh) as (s' & F & J'). rewrite <- E in F. exists s'. split; auto. rewrite F. unfold obj1. rewrite A. auto.
  - destruct (fd_second_mixed_ok cs S0 HT HC HN HS s1 (i / 3) (i mod 3) (j / 3) (j mod 3) h b d SJ1 L L' ltac:(congruence) Hb Hd Hh) as (s' & F & J').
    rewrite <- E, <- E' in F. exists s'. split; auto. rewrite F. unfold obj2. rewrite A, A'. auto.
Qed.

(** gradient component (k, i) on the updated skeleton *)
Definition grad (s : skeleton) (k i : nat) : R := - lsum (map (fun c => vdot (dcol s c k i) (res s c)) cs).
Lemma obj_deriv s m o : bone_tree s -> codes_ok s -> map shape_of s = map shape_of S0 -> (m < length s)%nat -> (o < 3)%nat ->
  forall x s2, update_skeleton (vary s m o x) = Some s2 -> derivable_pt_lim (fun z => obj cs (vary s m o z)) x (grad s2 m o).
Proof.
  intros HT' HC' SH Hm Ho x s2 U.
  assert (HS' : forall c, In c cs -> serial s c). { intros c Hc. destruct (HS c Hc) as (n & P). exists n. eapply path_shape; [symmetry; exact SH|auto]. }
  destruct (objective_deriv s m o HT' HC' Hm Ho cs HS') as (F & HF & DF).
  apply (dlim_ext (fun z => (1 / 2) * F z)).
  - intros z. destruct (vary_update s m o z HT' HC' Hm) as (s3 & U3). unfold obj, objective_at. rewrite U3, objstep_eq, (HF z s3 0 U3). ring.
  - eapply dlim_eq; [apply (derivable_pt_lim_scal F); apply DF; exact U|]. unfold grad. field.
Qed.
Lemma limit1 i s1 : (i < length S0 * 3)%nat -> update_skeleton S0 = Some s1 -> lim0 (fun h => fdv1 h i) (grad s1 (i / 3) (i mod 3)).
Proof.
  intros Hi U. destruct (idx_ok i Hi) as (b & Hb & L & E & A). unfold fdv1. apply central_first. unfold obj1.
  apply obj_deriv; auto; [apply nth_lt in Hb; auto|]. rewrite A, vary_same; auto.
Qed.
Lemma grad_deriv s m o k i : bone_tree s -> codes_ok s -> map shape_of s = map shape_of S0 -> (m < length s)%nat -> (o < 3)%nat -> (k < length s)%nat -> (i < 3)%nat ->
  exists G, (forall x s2, update_skeleton (vary s m o x) = Some s2 -> grad s2 k i = G x) /\ (forall x s2, update_skeleton (vary s m o x) = Some s2 -> derivable_pt_lim G x (second_derivative s2 cs m o k i)).
Proof.
  intros HT' HC' SH Hm Ho Hk Hi. apply gradient_deriv; auto. intros c Hc. destruct (HS c Hc) as (n & P). exists n. eapply path_shape; [symmetry; exact SH|auto].
Qed.
Lemma limit2 i j s1 : (i < length S0 * 3)%nat -> (j < length S0 * 3)%nat -> update_skeleton S0 = Some s1 ->
  lim0 (fun h => fdv2 h i j) (second_derivative s1 cs (j / 3) (j mod 3) (i / 3) (i mod 3)).
Proof.
  intros Hi Hj U. destruct (idx_ok i Hi) as (b & Hb & L & E & A). destruct (idx_ok j Hj) as (d & Hd & L' & E' & A'). pose proof (nth_lt _ _ _ Hb) as Lb. pose proof (nth_lt _ _ _ Hd) as Ld.
  unfold fdv2. destruct (Nat.eqb_spec i j) as [<-|D].
  - destruct (grad_deriv S0 (i / 3) (i mod 3) (i / 3) (i mod 3)) as (G & HG & DG); auto.
    assert (U' : update_skeleton (vary S0 (i / 3) (i mod 3) (angle_at i)) = Some s1) by (rewrite A, vary_same; auto).
    assert (OB : obj cs S0 = obj1 i (angle_at i)) by (unfold obj1; rewrite A, vary_same; auto).
    pose proof (central_second (obj1 i) G (angle_at i) (second_derivative s1 cs (i / 3) (i mod 3) (i / 3) (i mod 3))) as X.
    intros eps He. destruct X with (eps := eps) as (dd & P & Q); auto.
    + intros y. destruct (vary_update S0 (i / 3) (i mod 3) y HT HC Lb) as (s2 & U2). rewrite <- (HG y s2 U2). unfold obj1. apply obj_deriv; auto.
    + exists dd. split; auto. intros h N Lh. rewrite OB. apply Q; auto.
  - set (m := (i / 3)%nat) in *. set (o := (i mod 3)%nat) in *. set (k := (j / 3)%nat) in *. set (q := (j mod 3)%nat) in *.
    assert (NE : (m, o) <> (k, q)) by congruence.
    assert (SX : forall x y, exists s2, update_skeleton (vary2 S0 m o k q x y) = Some s2).
    { intros x y. apply vary_update; [apply vary_tree; auto|apply vary_codes; auto|rewrite vary_length; auto]. }
    destruct (second_of (angle_at i) (angle_at j) S0 HT HC m o k q L L' cs k q m o HS Ld L' Lb L) as (H & HH & CH).
    (* the first derivative as a function of both angles *)
    set (g := fun x y => match update_skeleton (vary2 S0 m o k q x y) with Some s2 => grad s2 m o | None => 0 end).
    assert (D1 : forall x y, derivable_pt_lim (fun z => obj2 i j z y) x (g x y)).
    { intros x y. destruct (SX x y) as (s2 & U2). unfold g. rewrite U2. apply (dlim_ext (fun z => obj cs (vary (vary S0 k q y) m o z))).
      - intros z. unfold obj2, vary2. fold m o k q. rewrite (vary_comm S0 k q m o) by (auto; congruence). auto.
      - apply obj_deriv; auto; [apply vary_tree; auto|apply vary_codes; auto|apply vary_shape|rewrite vary_length; auto|]. rewrite (vary_comm S0 k q m o) by (auto; congruence). exact U2. }
    assert (D2 : forall x y, derivable_pt_lim (fun z => g x z) y (H x y)).
    { intros x y. destruct (SX x y) as (s2 & U2). rewrite <- (HH x y s2 U2).
      destruct (grad_deriv (vary S0 m o x) k q m o) as (G & HG & DG); auto; [apply vary_tree; auto|apply vary_codes; auto|apply vary_shape|rewrite vary_length; auto|rewrite vary_length; auto|].
      apply (dlim_ext G); [|apply DG; exact U2]. intros z. destruct (SX x z) as (s3 & U3). unfold g. rewrite U3. symmetry. apply HG. exact U3. }
    assert (HV : H (angle_at i) (angle_at j) = second_derivative s1 cs k q m o).
    { symmetry. apply HH. unfold SS, vary2. rewrite A, A'. rewrite (vary_same S0 m o b Hb), (vary_same S0 k q d Hd). auto. }
    rewrite <- HV. apply (central_mixed (obj2 i j) g H); auto.
Qed.
End Limits.
