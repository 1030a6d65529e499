(** compute_gradient is the derivative of compute_objective. *)
From Coq Require Import Arith.Wf_nat.
From Verif Require Import Base VecModel QuatModel QuatProofs BvhModel BvhProofs IkModel IkSpec IkProofs IkPose IkDeriv IkJac.
Open Scope R_scope.

Lemma update_idem s : bone_tree s -> codes_ok s -> posed s -> s <> [] -> update_skeleton s = Some s.
Proof.
  intros HT HC HP HN. destruct (update_skeleton_ok s HT HC HN) as (s' & U & SJ & R). rewrite U. f_equal. symmetry. apply right_ext; auto.
Qed.

Definition lsum (l : list R) : R := fold_right Rplus 0 l.
(** column (m, o) of the rows of chain [c], and its residual *)
Definition dcol (s : skeleton) (c : chain) (m o : nat) : vec3 :=
  match get_end_effector c s with Some e => if in_dec Nat.eq_dec m (ch_bones c) then jcol s e m o else vzero | None => vzero end.
Definition res (s : skeleton) (c : chain) : vec3 := match get_end_effector c s with Some e => vsub (ch_goal c) e | None => vzero end.
Definition objstep (s : skeleton) (f : R) (c : chain) : option R := match residual s c with Some r => Some (f + vdot r r) | None => None end.

Lemma objective_deriv s m o : bone_tree s -> codes_ok s -> (m < length s)%nat -> (o < 3)%nat -> forall cs, (forall c, In c cs -> serial s c) ->
  exists F, (forall x s2 a, update_skeleton (vary s m o x) = Some s2 -> loop (objstep s2) cs a = Some (a + F x)) /\
  (forall x s2, update_skeleton (vary s m o x) = Some s2 -> derivable_pt_lim F x (-2 * lsum (map (fun c => vdot (dcol s2 c m o) (res s2 c)) cs))).
Proof.
  intros HT HC Hm Ho. induction cs as [|c cs IH]; intros Hc.
  - exists (fun _ => 0). split; [intros; cbn; f_equal; ring|]. intros. cbn. eapply dlim_eq; [apply derivable_pt_lim_const|ring].
  - destruct (IH (fun c H => Hc c (or_intror H))) as (F & HF & DF).
    destruct (ee_deriv s c m o 0 HT HC (Hc c (or_introl eq_refl)) Hm Ho) as (E & HE & _).
    exists (fun x => vdot (vsub (ch_goal c) (E x)) (vsub (ch_goal c) (E x)) + F x). split.
    + intros x s2 a U. cbn [loop]. unfold objstep at 1, residual. rewrite (HE x s2 U). rewrite (HF x s2 _ U). f_equal. ring.
    + intros x s2 U. destruct (ee_deriv s c m o x HT HC (Hc c (or_introl eq_refl)) Hm Ho) as (E' & HE' & DE). specialize (DE s2 U).
      assert (EE : forall t, E' t = E t). { intros t. destruct (vary_update s m o t HT HC Hm) as (s3 & U3). pose proof (HE t s3 U3). pose proof (HE' t s3 U3). congruence. }
      assert (DG : vderiv E x (dcol s2 c m o)). { unfold dcol. rewrite (HE x s2 U). rewrite <- (EE x). eapply vderiv_ext; [exact EE|exact DE]. }
      assert (DR : vderiv (fun t => vsub (ch_goal c) (E t)) x (vsub vzero (dcol s2 c m o))) by (apply vderiv_sub; auto using vderiv_const).
      eapply dlim_eq; [apply dlim_plus; [apply vderiv_dot; exact DR|apply DF; eauto]|].
      cbn [map lsum fold_right]. unfold res at 2. rewrite (HE x s2 U). unfold lsum. cbv beta. unfold vdot, vsub, vzero. cbn. ring.
Qed.
Lemma objstep_eq cs s : compute_objective cs s = match loop (objstep s) cs 0 with Some f => Some (f * (1 / 2)) | None => None end.
Proof. reflexivity. Qed.

(** ** the gradient *)
Lemma sum_n_three n f : sum_n (n * 3) f = sum_n n (fun c => f (c * 3)%nat + f (c * 3 + 1)%nat + f (c * 3 + 2)%nat).
Proof. induction n as [|n IH]; [reflexivity|]. replace (S n * 3)%nat with (S (S (S (n * 3)))) by lia. cbn [sum_n]. rewrite IH. replace (n * 3 + 1)%nat with (S (n * 3)) by lia. replace (n * 3 + 2)%nat with (S (S (n * 3))) by lia. ring. Qed.
Lemma sum_n_ext n f g : (forall k, (k < n)%nat -> f k = g k) -> sum_n n f = sum_n n g.
Proof. induction n as [|n IH]; intros H; cbn; auto. rewrite IH by (intros; apply H; lia). rewrite H by lia. auto. Qed.
Lemma sum_n_shift n f : sum_n (S n) f = f 0%nat + sum_n n (fun k => f (S k)).
Proof. induction n as [|n IH]; [cbn; ring|]. replace (sum_n (S (S n)) f) with (sum_n (S n) f + f (S n)) by reflexivity. rewrite IH. cbn [sum_n]. ring. Qed.
Lemma sum_n_list {A} (l : list A) (g : A -> R) d : sum_n (length l) (fun k => g (nth k l d)) = lsum (map g l).
Proof. induction l as [|a l IH]; [reflexivity|]. cbn [length]. rewrite sum_n_shift. cbn [nth map]. change (lsum (g a :: map g l)) with (g a + lsum (map g l)). rewrite <- IH. auto. Qed.
Lemma nth_concat3 (rs : list vec3) : forall c j, (c < length rs)%nat -> (j < 3)%nat -> nth (c * 3 + j) (concat (map coords rs)) 0 = nth j (coords (nth c rs vzero)) 0.
Proof.
  induction rs as [|r rs IH]; intros c j Hc Hj; cbn [length] in Hc; [lia|]. cbn [map concat]. destruct c as [|c].
  - cbn [Nat.mul Nat.add nth]. rewrite app_nth1; auto.
  - rewrite app_nth2 by (cbn; lia). cbn [length coords nth]. replace (S c * 3 + j - 3)%nat with (c * 3 + j)%nat by lia. apply IH; lia.
Qed.
Lemma residuals s cs : (forall c, In c cs -> chain_fits s c) -> map_opt (residual s) cs = Some (map (res s) cs).
Proof.
  induction cs as [|c cs IH]; intros H; [reflexivity|]. cbn [map_opt map]. destruct (end_effector_exists s c (H c (or_introl eq_refl))) as (e & Ee).
  unfold residual at 1, res at 1. rewrite Ee, IH; auto. intros; apply H; right; auto.
Qed.
Lemma concat_coords_length rs : length (concat (map coords rs)) = (length rs * 3)%nat.
Proof. induction rs as [|r rs IH]; [reflexivity|]. cbn [map concat]. rewrite app_length, IH. cbn; lia. Qed.
Lemma nth_map_seq (f : nat -> R) n k : (k < n)%nat -> nth_error (map f (seq 0 n)) k = Some (f k).
Proof. intros H. rewrite nth_error_map. rewrite (nth_error_nth' _ 0%nat) by (rewrite seq_length; auto). rewrite seq_nth by auto. reflexivity. Qed.

Lemma gradient_ok s cs : bone_tree s -> codes_ok s -> posed s -> (forall c, In c cs -> chain_fits s c) ->
  exists J g, compute_jacobian cs s = Some J /\ compute_gradient cs s J = Some g /\ length g = (length s * 3)%nat /\
  forall m o, (m < length s)%nat -> (o < 3)%nat -> nth_error g (m * 3 + o) = Some (- lsum (map (fun c => vdot (dcol s c m o) (res s c)) cs)).
Proof.
  intros HT HC HP Hc. destruct (jacobian_ok s cs HT HC HP Hc) as (J & EJ & R & C & V). exists J. unfold compute_gradient. rewrite (residuals s cs Hc).
  rewrite concat_coords_length, map_length, R, Nat.eqb_refl. eexists. split; [auto|]. split; [reflexivity|]. split; [rewrite map_length, seq_length; auto|].
  intros m o Hm Ho. rewrite nth_map_seq by (rewrite C; lia). f_equal. f_equal. rewrite sum_n_three.
  destruct cs as [|d cs0]; [reflexivity|]. set (cs := d :: cs0) in *.
  rewrite <- (sum_n_list cs _ d). apply sum_n_ext. intros n Hn.
  rewrite <- (Nat.add_0_r (n * 3)) at 2. rewrite !nth_concat3 by (try rewrite map_length; lia).
  rewrite (nth_indep (map (res s) cs) vzero (res s d)) by (rewrite map_length; auto). rewrite map_nth.
  pose proof (nth_error_nth' cs d Hn) as Hnth. destruct (end_effector_exists s (nth n cs d) (Hc _ (nth_In _ _ Hn))) as (e & Ee).
  pose proof (V n _ e m o Hnth Ee Ho) as X. unfold dcol. rewrite Ee. rewrite <- X. unfold get_col3, vdot. cbn. ring.
Qed.
