(** Array bookkeeping of StateStorage: blocks of stacked vectors. *)
From Verif Require Import Base QuatModel VecModel BvhModel GridModel VolModel ProxModel SolverModel SolverProofs
  QuatProofs RigidTypes CollModel StepModel.
Open Scope R_scope.

Ltac bcase := repeat match goal with |- context [Nat.eqb ?a ?b] => destruct (Nat.eqb_spec a b); try lia end; try reflexivity.

Lemma read3_write3 x o v : read3 (write3 x o v) o = v.
Proof. apply vec3_eq; cbn; unfold write3; bcase. Qed.
Lemma read4_write4 x o q : read4 (write4 x o q) o = q.
Proof. apply quat_eq; cbn; unfold write4; bcase. Qed.
Lemma write3_other x o v j : ~ (o <= j < o + 3)%nat -> write3 x o v j = x j.
Proof. intros; unfold write3; bcase. Qed.
Lemma write4_other x o v j : ~ (o <= j < o + 4)%nat -> write4 x o v j = x j.
Proof. intros; unfold write4; bcase. Qed.
Lemma read3_ext x y o : (forall j, (o <= j < o + 3)%nat -> x j = y j) -> read3 x o = read3 y o.
Proof. intros H; unfold read3; f_equal; apply H; lia. Qed.
Lemma read4_ext x y o : (forall j, (o <= j < o + 4)%nat -> x j = y j) -> read4 x o = read4 y o.
Proof. intros H; unfold read4; f_equal; apply H; lia. Qed.
Lemma read3_inj x y o j : read3 x o = read3 y o -> (o <= j < o + 3)%nat -> x j = y j.
Proof.
  intros H Hj. assert (H0 := f_equal vx H). assert (H1 := f_equal vy H). assert (H2 := f_equal vz H). cbn in *.
  assert (D : j = o \/ j = (o + 1)%nat \/ j = (o + 2)%nat) by lia. destruct D as [->|[->| ->]]; assumption.
Qed.

(** ** enumerate *)
Lemma enum_nth {A} (l : list A) i : nth_error (enum l) i = option_map (fun b => (i, b)) (nth_error l i).
Proof.
  unfold enum. enough (H : forall s i, nth_error (combine (seq s (length l)) l) i = option_map (fun b => ((s + i)%nat, b)) (nth_error l i)) by apply (H 0%nat i).
  induction l as [|a l IH]; intros s j; cbn; destruct j; try reflexivity.
  - cbn. f_equal. f_equal. lia.
  - cbn. rewrite IH. destruct (nth_error l j); cbn; try reflexivity. do 2 f_equal; lia.
Qed.
Lemma enum_length {A} (l : list A) : length (enum l) = length l.
Proof. unfold enum. rewrite combine_length, seq_length. lia. Qed.
Lemma enum_in {A} (l : list A) k b : In (k, b) (enum l) <-> nth_error l k = Some b.
Proof.
  split; intros H.
  - apply In_nth_error in H as [n Hn]. rewrite enum_nth in Hn. destruct (nth_error l n) eqn:E; cbn in Hn; congruence.
  - apply (nth_error_In _ k). rewrite enum_nth, H. reflexivity.
Qed.

(** ** a loop that writes the block of width W of each element *)
Section Blocks.
  Context {A : Type} (W : nat) (F : vec -> nat -> A -> vec).
  Hypothesis Fout : forall x k b j, ~ (W * k <= j < W * k + W)%nat -> F x k b j = x j.
  Definition bloop (l : list (nat * A)) (x : vec) : vec := fold_left (fun x kb => F x (fst kb) (snd kb)) l x.

  Lemma bloop_below l : forall s x j, (j < W * s)%nat -> bloop (combine (seq s (length l)) l) x j = x j.
  Proof.
    induction l as [|a l IH]; intros s x j Hj; cbn; auto.
    unfold bloop in *. cbn. rewrite IH by lia. cbn. apply Fout. lia.
  Qed.
  Lemma bloop_from l : forall s x i b, nth_error l i = Some b ->
    exists x', (forall j, (W * (s + i) <= j)%nat -> x' j = x j) /\
      (forall j, (j < W * (s + i) + W)%nat -> bloop (combine (seq s (length l)) l) x j = F x' (s + i) b j).
  Proof.
    induction l as [|a l IH]; intros s x i b Hi; [destruct i; discriminate|].
    destruct i as [|i]; cbn in Hi.
    - injection Hi as ->. exists x. rewrite Nat.add_0_r. split; auto. intros j Hj. cbn [seq length combine].
      unfold bloop; cbn [fold_left fst snd]. apply (bloop_below l (S s)). lia.
    - destruct (IH (S s) (F x s a) i b Hi) as (x' & H1 & H2). exists x'.
      replace (s + S i)%nat with (S s + i)%nat by lia. split.
      + intros j Hj. rewrite H1 by lia. apply Fout. nia.
      + intros j Hj. unfold bloop in *. cbn [seq length combine fold_left fst snd]. apply H2. lia.
  Qed.
  Lemma bloop_block l x i b : nth_error l i = Some b ->
    exists x', (forall j, (W * i <= j)%nat -> x' j = x j) /\
      (forall j, (j < W * i + W)%nat -> bloop (enum l) x j = F x' i b j).
  Proof. intros H. apply (bloop_from l 0 x i b H). Qed.
End Blocks.

Lemma bloop_fold {A} (F : vec -> nat -> A -> vec) G l x :
  (forall x k b, G x (k, b) = F x k b) -> fold_left G l x = bloop F l x.
Proof. intros H. unfold bloop. revert x. induction l as [|[k b] l IH]; intros x; cbn; auto. rewrite H. apply IH. Qed.

(** ** stacking and unstacking *)
Lemma position_vector_block bs k b : nth_error bs k = Some b ->
  read3 (get_position_vector bs) (7 * k) = b_r b /\ read4 (get_position_vector bs) (7 * k + 3) = b_q b.
Proof.
  intros Hk. unfold get_position_vector.
  rewrite (bloop_fold (fun x k b => write4 (write3 x (7 * k) (b_r b)) (7 * k + 3) (b_q b))) by reflexivity.
  destruct (bloop_block 7 (fun x k b => write4 (write3 x (7 * k) (b_r b)) (7 * k + 3) (b_q b))
    ltac:(intros; cbv beta; rewrite write4_other, write3_other by lia; reflexivity) bs vzeros k b Hk) as (x' & _ & H).
  split.
  - rewrite (read3_ext _ (write3 x' (7 * k) (b_r b))); [apply read3_write3|].
    intros j Hj. rewrite H by lia. apply write4_other. lia.
  - rewrite (read4_ext _ (write4 (write3 x' (7 * k) (b_r b)) (7 * k + 3) (b_q b))); [apply read4_write4|].
    intros j Hj. apply H. lia.
Qed.
Lemma velocity_vector_block bs k b : nth_error bs k = Some b ->
  read3 (get_velocity_vector bs) (6 * k) = b_v b /\ read3 (get_velocity_vector bs) (6 * k + 3) = b_w b.
Proof.
  intros Hk. unfold get_velocity_vector.
  rewrite (bloop_fold (fun x k b => write3 (write3 x (6 * k) (b_v b)) (6 * k + 3) (b_w b))) by reflexivity.
  destruct (bloop_block 6 (fun x k b => write3 (write3 x (6 * k) (b_v b)) (6 * k + 3) (b_w b))
    ltac:(intros; cbv beta; rewrite write3_other, write3_other by lia; reflexivity) bs vzeros k b Hk) as (x' & _ & H).
  split.
  - rewrite (read3_ext _ (write3 x' (6 * k) (b_v b))); [apply read3_write3|].
    intros j Hj. rewrite H by lia. apply write3_other. lia.
  - rewrite (read3_ext _ (write3 (write3 x' (6 * k) (b_v b)) (6 * k + 3) (b_w b))); [apply read3_write3|].
    intros j Hj. apply H. lia.
Qed.

Lemma with_same b : with_pose (with_vel b (b_v b) (b_w b)) (b_r b) (b_q b) = b.
Proof. destruct b; reflexivity. Qed.
Lemma nth_error_ext {A} (l l' : list A) : (forall i, nth_error l i = nth_error l' i) -> l = l'.
Proof.
  revert l'. induction l as [|a l IH]; intros [|a' l'] H; auto.
  - specialize (H 0%nat); discriminate.
  - specialize (H 0%nat); discriminate.
  - assert (H0 := H 0%nat). cbn in H0. injection H0 as ->. f_equal. apply IH. intros i. apply (H (S i)).
Qed.
Lemma copy_nth x u bs k : nth_error (copy_to_bodies x u bs) k =
  option_map (fun b => with_pose (with_vel b (read3 u (6 * k)) (read3 u (6 * k + 3))) (read3 x (7 * k)) (read4 x (7 * k + 3))) (nth_error bs k).
Proof. unfold copy_to_bodies. rewrite nth_error_map, enum_nth. destruct (nth_error bs k); reflexivity. Qed.
Lemma round_trip bs : copy_to_bodies (get_position_vector bs) (get_velocity_vector bs) bs = bs.
Proof.
  apply nth_error_ext. intros i. rewrite copy_nth. destruct (nth_error bs i) as [b|] eqn:E; auto. cbn [option_map].
  destruct (position_vector_block _ _ _ E) as [-> ->]. destruct (velocity_vector_block _ _ _ E) as [-> ->].
  rewrite with_same. reflexivity.
Qed.

(** ** the inverse mass matrix *)
Lemma map_opt_nth {A B} (f : A -> option B) l : forall r i, map_opt f l = Some r ->
  nth_error r i = match nth_error l i with Some a => f a | None => None end.
Proof.
  induction l as [|a l IH]; intros r i H; cbn in H.
  - injection H as <-. destruct i; reflexivity.
  - destruct (f a) as [b|] eqn:E; [|discriminate]. destruct (map_opt f l) as [r'|] eqn:E'; [|discriminate].
    injection H as <-. destruct i; cbn; auto.
Qed.
Lemma map_opt_length {A B} (f : A -> option B) l r : map_opt f l = Some r -> length r = length l.
Proof.
  revert r. induction l as [|a l IH]; intros r H; cbn in H; [injection H as <-; reflexivity|].
  destruct (f a); [|discriminate]. destruct (map_opt f l); [|discriminate]. injection H as <-. cbn. f_equal. auto.
Qed.
Lemma concat_pairs {A} (ls : list (list A)) d k p : (forall l, In l ls -> length l = 2%nat) -> nth_error ls k = Some p ->
  nth (2 * k) (concat ls) d = nth 0 p d /\ nth (2 * k + 1) (concat ls) d = nth 1 p d.
Proof.
  revert k. induction ls as [|l ls IH]; intros k Hl Hk; [destruct k; discriminate|].
  assert (L := Hl l (or_introl eq_refl)).
  destruct k; cbn [nth_error] in Hk.
  - injection Hk as ->. cbn [concat]. rewrite !app_nth1 by lia. split; reflexivity.
  - cbn [concat]. rewrite !app_nth2 by lia. rewrite L.
    replace (2 * S k - 2)%nat with (2 * k)%nat by lia. replace (2 * S k + 1 - 2)%nat with (2 * k + 1)%nat by lia.
    apply IH; auto. intros; apply Hl; right; auto.
Qed.
Lemma inverse_mass_blocks_len x k b l : inverse_mass_blocks x k b = Some l -> length l = 2%nat.
Proof.
  unfold inverse_mass_blocks. destruct (b_fixed b); [intros H; injection H as <-; reflexivity|].
  destruct (Reqb _ _); [discriminate|]. destruct (_ || _); [discriminate|]. intros H; injection H as <-; reflexivity.
Qed.
Lemma W_blocks x bs W k b : compute_inverse_mass_matrix x bs = Some W -> nth_error bs k = Some b ->
  exists M I, inverse_mass_blocks x k b = Some [M; I] /\
   forall i, (6 * k <= i < 6 * k + 6)%nat -> forall j,
     W i j = if Nat.eqb (i / 3) (j / 3) then ment (if Nat.ltb (i - 6 * k) 3 then M else I) (i mod 3) (j mod 3) else 0.
Proof.
  unfold compute_inverse_mass_matrix. intros H Hk.
  destruct (map_opt _ _) as [ls|] eqn:E; [|discriminate].
  assert (W = block_diag3 (concat ls)) by congruence. subst W. clear H.
  assert (N := map_opt_nth _ _ _ k E). rewrite enum_nth, Hk in N. cbn [option_map fst snd] in N.
  assert (L : forall l, In l ls -> length l = 2%nat).
  { intros l Hl. apply In_nth_error in Hl as [n Hn]. assert (N' := map_opt_nth _ _ _ n E). rewrite Hn in N'.
    destruct (nth_error (enum bs) n) as [[k' b']|]; [|discriminate]. apply (inverse_mass_blocks_len x k' b'). symmetry; exact N'. }
  destruct (inverse_mass_blocks x k b) as [p|] eqn:Ep.
  2:{ exfalso. assert (k < length ls)%nat. { rewrite (map_opt_length _ _ _ E), enum_length. apply nth_error_Some; congruence. }
      apply nth_error_Some in H. congruence. }
  assert (Lp := inverse_mass_blocks_len _ _ _ _ Ep).
  destruct p as [|M [|I [|]]]; try discriminate Lp.
  exists M, I. split; auto.
  intros i Hi j. unfold block_diag3. destruct (Nat.eqb_spec (i / 3) (j / 3)); auto.
  destruct (concat_pairs ls mzero k [M; I] L N) as [P1 P2]. cbn [nth] in P1, P2.
  assert (D : (i / 3 = 2 * k \/ i / 3 = 2 * k + 1)%nat).
  { assert (i = 3 * (i / 3) + i mod 3)%nat by (apply Nat.div_mod; lia). assert (i mod 3 < 3)%nat by (apply Nat.mod_upper_bound; lia). lia. }
  assert (i = 3 * (i / 3) + i mod 3)%nat by (apply Nat.div_mod; lia).
  destruct D as [D|D]; rewrite D in *.
  - rewrite P1. destruct (Nat.ltb_spec (i - 6 * k) 3); auto. exfalso. assert (i mod 3 < 3)%nat by (apply Nat.mod_upper_bound; lia). lia.
  - rewrite P2. destruct (Nat.ltb_spec (i - 6 * k) 3); auto. exfalso. lia.
Qed.

(** a sum supported on three consecutive indices *)
Lemma rsum_three N o f : (o + 3 <= N)%nat -> (forall j, (j < N)%nat -> ~ (o <= j < o + 3)%nat -> f j = 0) ->
  rsum N f = f o + f (o + 1)%nat + f (o + 2)%nat.
Proof.
  intros HN H. replace N with (o + (3 + (N - o - 3)))%nat by lia. rewrite !rsum_add.
  rewrite (rsum_zero o) by (intros; apply H; lia).
  rewrite (rsum_zero (N - o - 3)) by (intros; apply H; lia). cbn. rewrite Nat.add_0_r. lra.
Qed.
Lemma div3_block o j : (3 * o <= j < 3 * o + 3)%nat -> (j / 3 = o /\ j mod 3 = j - 3 * o)%nat.
Proof.
  intros H. assert (j = 3 * (j / 3) + j mod 3)%nat by (apply Nat.div_mod; lia).
  assert (j mod 3 < 3)%nat by (apply Nat.mod_upper_bound; lia). lia.
Qed.
Lemma div3_unblock o j : (j / 3 = o)%nat -> (3 * o <= j < 3 * o + 3)%nat.
Proof.
  intros H. assert (j = 3 * (j / 3) + j mod 3)%nat by (apply Nat.div_mod; lia).
  assert (j mod 3 < 3)%nat by (apply Nat.mod_upper_bound; lia). lia.
Qed.
Lemma block_row_dot N (W : mat) o M i f : (3 * o + 3 <= N)%nat -> (i < 3)%nat ->
  (forall j, W (3 * o + i)%nat j = if Nat.eqb o (j / 3) then ment M i (j mod 3) else 0) ->
  mdotv N W f (3 * o + i)%nat = match i with O => vx | 1%nat => vy | _ => vz end (mvec M (read3 f (3 * o))).
Proof.
  intros HN Hi HW. unfold mdotv. rewrite (rsum_three N (3 * o)); auto.
  2:{ intros j _ Hj. rewrite HW. destruct (Nat.eqb_spec o (j / 3)); [|lra]. exfalso. apply Hj, div3_unblock. auto. }
  rewrite !HW. destruct (div3_block o (3 * o) ltac:(lia)) as [-> ->].
  destruct (div3_block o (3 * o + 1) ltac:(lia)) as [-> ->]. destruct (div3_block o (3 * o + 2) ltac:(lia)) as [-> ->].
  rewrite Nat.eqb_refl, Nat.sub_diag. replace (3 * o + 1 - 3 * o)%nat with 1%nat by lia. replace (3 * o + 2 - 3 * o)%nat with 2%nat by lia.
  destruct i as [|[|[|]]]; try lia; cbn [mvec read3 vx vy vz ment]; reflexivity.
Qed.
Lemma W_dot x bs W k b f : compute_inverse_mass_matrix x bs = Some W -> nth_error bs k = Some b ->
  exists M I, inverse_mass_blocks x k b = Some [M; I] /\
    read3 (mdotv (6 * length bs) W f) (6 * k) = mvec M (read3 f (6 * k)) /\
    read3 (mdotv (6 * length bs) W f) (6 * k + 3) = mvec I (read3 f (6 * k + 3)).
Proof.
  intros HW Hk. destruct (W_blocks _ _ _ _ _ HW Hk) as (M & I & HB & HE). exists M, I. split; auto.
  assert (k < length bs)%nat by (apply nth_error_Some; congruence).
  assert (R1 : forall i, (i < 3)%nat -> mdotv (6 * length bs) W f (3 * (2 * k) + i)%nat =
     match i with O => vx | 1%nat => vy | _ => vz end (mvec M (read3 f (3 * (2 * k))))).
  { intros i Hi. apply (block_row_dot (6 * length bs) W (2 * k) M i f); [nia|auto|]. intros j. rewrite HE by lia.
    destruct (div3_block (2 * k) (3 * (2 * k) + i) ltac:(lia)) as [-> ->].
    destruct (Nat.ltb_spec (3 * (2 * k) + i - 6 * k) 3); [|lia].
    replace (3 * (2 * k) + i - 3 * (2 * k))%nat with i by lia. reflexivity. }
  assert (R2 : forall i, (i < 3)%nat -> mdotv (6 * length bs) W f (3 * (2 * k + 1) + i)%nat =
     match i with O => vx | 1%nat => vy | _ => vz end (mvec I (read3 f (3 * (2 * k + 1))))).
  { intros i Hi. apply (block_row_dot (6 * length bs) W (2 * k + 1) I i f); [nia|auto|]. intros j. rewrite HE by lia.
    destruct (div3_block (2 * k + 1) (3 * (2 * k + 1) + i) ltac:(lia)) as [-> ->].
    destruct (Nat.ltb_spec (3 * (2 * k + 1) + i - 6 * k) 3); [lia|].
    replace (3 * (2 * k + 1) + i - 3 * (2 * k + 1))%nat with i by lia. reflexivity. }
  replace (6 * k)%nat with (3 * (2 * k))%nat in * by lia. replace (3 * (2 * k) + 3)%nat with (3 * (2 * k + 1))%nat by lia.
  split.
  - unfold read3 at 1. assert (A0 := R1 0%nat ltac:(lia)). assert (A1 := R1 1%nat ltac:(lia)). assert (A2 := R1 2%nat ltac:(lia)).
    rewrite Nat.add_0_r in A0. rewrite A0, A1, A2. destruct (mvec M _); reflexivity.
  - unfold read3 at 1. assert (A0 := R2 0%nat ltac:(lia)). assert (A1 := R2 1%nat ltac:(lia)). assert (A2 := R2 2%nat ltac:(lia)).
    rewrite Nat.add_0_r in A0. rewrite A0, A1, A2. destruct (mvec I _); reflexivity.
Qed.

(** rows of a fixed body vanish *)
Lemma ment_zero i j : ment mzero i j = 0.
Proof. destruct i as [|[|]], j as [|[|]]; reflexivity. Qed.
Lemma W_fixed x bs W k b i j : compute_inverse_mass_matrix x bs = Some W -> nth_error bs k = Some b -> b_fixed b = true ->
  (6 * k <= i < 6 * k + 6)%nat -> W i j = 0.
Proof.
  intros HW Hk Hf Hi. destruct (W_blocks _ _ _ _ _ HW Hk) as (M & I & HB & HE).
  unfold inverse_mass_blocks in HB. rewrite Hf in HB. assert (M = mzero) by congruence. assert (I = mzero) by congruence. subst M I.
  rewrite HE by auto. destruct (Nat.eqb _ _); auto. destruct (Nat.ltb _ _); apply ment_zero.
Qed.

(** ** external forces of body k *)
Lemma external_force_block x u bs k b : nth_error bs k = Some b -> b_fixed b = false ->
  let f := compute_total_external_forces x u bs in
  (read3 f (6 * k), read3 f (6 * k + 3)) = body_force x u k b.
Proof.
  intros Hk Hf. cbv zeta. unfold compute_total_external_forces.
  set (F := fun (f : vec) (k : nat) (b : body) => if b_fixed b then f else
     let '(F, T) := body_force x u k b in write3 (write3 f (6 * k) F) (6 * k + 3) T).
  rewrite (bloop_fold F) by reflexivity.
  assert (Fout : forall x k b j, ~ (6 * k <= j < 6 * k + 6)%nat -> F x k b j = x j).
  { intros y k' b' j Hj. unfold F. destruct (b_fixed b'); auto. destruct (body_force x u k' b'). rewrite write3_other, write3_other by lia. reflexivity. }
  destruct (bloop_block 6 F Fout bs vzeros k b Hk) as (x' & _ & H).
  unfold F in H at 2. rewrite Hf in H. destruct (body_force x u k b) as [Fk Tk] eqn:E.
  f_equal.
  - rewrite (read3_ext _ (write3 x' (6 * k) Fk)); [apply read3_write3|]. intros j Hj. rewrite H by lia. apply write3_other; lia.
  - rewrite (read3_ext _ (write3 (write3 x' (6 * k) Fk) (6 * k + 3) Tk)); [apply read3_write3|]. intros j Hj. rewrite H by lia. reflexivity.
Qed.

(** ** position update of body k *)
Definition moved (dt : R) (v w : vec3) (r : vec3) (q : quat) : vec3 * quat :=
  (vadd r (vscale dt v), q_unit (qadd q (qscale (1 / 2) (qscale dt (q_prod (q_from_vector3 w) q))))).
Lemma position_update_block dt bs u x k b : nth_error bs k = Some b ->
  let y := position_update dt bs u x in
  (b_fixed b = true -> read3 y (7 * k) = read3 x (7 * k) /\ read4 y (7 * k + 3) = read4 x (7 * k + 3)) /\
  (b_fixed b = false -> (read3 y (7 * k), read4 y (7 * k + 3)) =
     moved dt (read3 u (6 * k)) (read3 u (6 * k + 3)) (read3 x (7 * k)) (read4 x (7 * k + 3))).
Proof.
  intros Hk. cbv zeta. unfold position_update.
  set (F := fun (x : vec) (k : nat) (b : body) => if b_fixed b then x else
    let r := read3 x (7 * k) in let q := read4 x (7 * k + 3) in let v := read3 u (6 * k) in let w := read3 u (6 * k + 3) in
    let r' := vadd r (vscale dt v) in
    let q' := qadd q (qscale (1 / 2) (qscale dt (q_prod (q_from_vector3 w) q))) in
    write4 (write3 x (7 * k) r') (7 * k + 3) (q_unit q')).
  rewrite (bloop_fold F) by reflexivity.
  assert (Fout : forall x k b j, ~ (7 * k <= j < 7 * k + 7)%nat -> F x k b j = x j).
  { intros y k' b' j Hj. unfold F. destruct (b_fixed b'); auto. cbv zeta. rewrite write4_other, write3_other by lia. reflexivity. }
  destruct (bloop_block 7 F Fout bs x k b Hk) as (x' & H1 & H).
  unfold F in H at 2. split; intros Hf; rewrite Hf in H.
  - split; [apply read3_ext | apply read4_ext]; intros j Hj; rewrite H by lia; apply H1; lia.
  - assert (R3 : read3 x' (7 * k) = read3 x (7 * k)) by (apply read3_ext; intros; apply H1; lia).
    assert (R4 : read4 x' (7 * k + 3) = read4 x (7 * k + 3)) by (apply read4_ext; intros; apply H1; lia).
    cbv zeta in H. rewrite R3, R4 in H. unfold moved.
    match type of H with context [write4 (write3 x' _ ?r1) _ ?q1] => set (r' := r1) in *; set (q' := q1) in * end.
    f_equal.
    + rewrite (read3_ext _ (write3 x' (7 * k) r')); [apply read3_write3|]. intros j Hj. rewrite H by lia. apply write4_other; lia.
    + rewrite (read4_ext _ (write4 (write3 x' (7 * k) r') (7 * k + 3) q')); [apply read4_write4|]. intros j Hj. apply H; lia.
Qed.

(** ** collision detection only touches contacts and bounding volumes *)
Definition bvh_only (b b' : body) : Prop := exists t, b' = with_bvh b t.
Lemma map_opt_Forall2 {A B} (f : A -> option B) (R : A -> B -> Prop) l : (forall a b, f a = Some b -> R a b) ->
  forall r, map_opt f l = Some r -> Forall2 R l r.
Proof.
  intros HR. induction l as [|a l IH]; intros r H; cbn in H; [injection H as <-; constructor|].
  destruct (f a) eqn:E; [|discriminate]. destruct (map_opt f l); [|discriminate]. injection H as <-. constructor; auto.
Qed.
Lemma cd_bvh_only e e' : run_collision_detection e = Some e' ->
  Forall2 bvh_only (e_bodies e) (e_bodies e') /\ e_hinges e' = e_hinges e /\ e_forces e' = e_forces e /\
  e_shapes e' = e_shapes e /\ e_lib e' = e_lib e /\ e_params e' = e_params e /\ e_stepper e' = e_stepper e.
Proof.
  unfold run_collision_detection, update_bvh. intros H.
  destruct (map_opt _ _) as [bs|] eqn:E; [|discriminate].
  destruct (narrow_phase _) as [ov|]; [|discriminate].
  unfold contact_determination in H. destruct (map_opt _ ov) as [cs|]; [|discriminate].
  injection H; intros <-. clear H.
  cbn. repeat split; auto.
  eapply map_opt_Forall2; [|exact E].
  intros b b' Hb; cbv beta in Hb; destruct (b_shape b); [|discriminate]; destruct (b_bvh b); [|discriminate].
  destruct (refit_bvh _ _ _ _ _) as [t'|]; [|discriminate]; exists t'; injection Hb; intros <-; reflexivity.
Qed.
Lemma Forall2_nth {A B} (R : A -> B -> Prop) l l' i a : Forall2 R l l' -> nth_error l i = Some a ->
  exists b, nth_error l' i = Some b /\ R a b.
Proof.
  intros H. revert i. induction H; intros [|i] Hi; cbn in Hi; try discriminate.
  - assert (x = a) by congruence. subst. exists y. split; auto.
  - apply IHForall2; auto.
Qed.
Lemma Forall2_len {A B} (R : A -> B -> Prop) l l' : Forall2 R l l' -> length l = length l'.
Proof. induction 1; cbn; congruence. Qed.
