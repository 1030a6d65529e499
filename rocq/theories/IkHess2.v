(** What compute_hessian computes, entry by entry. *)
From Verif Require Import Base VecModel QuatModel QuatProofs BvhModel BvhProofs IkModel IkSpec IkProofs IkPose IkDeriv IkJac IkGrad IkHess.
Open Scope R_scope.

Lemma sub_block_at H r c B p a q b : (a < 3)%nat -> (b < 3)%nat -> m_at (sub_block H (r * 3) (c * 3) B) (p * 3 + a) (q * 3 + b) =
  if (Nat.eqb p r && Nat.eqb q c)%bool then m_at H (p * 3 + a) (q * 3 + b) - B a b else m_at H (p * 3 + a) (q * 3 + b).
Proof.
  intros Ha Hb. unfold sub_block. cbn [m_at].
  destruct (Nat.eqb_spec p r) as [->|Np]; [destruct (Nat.eqb_spec q c) as [->|Nq]|]; cbn [andb].
  - replace ((r * 3 <=? r * 3 + a) && (r * 3 + a <? r * 3 + 3) && (c * 3 <=? c * 3 + b) && (c * 3 + b <? c * 3 + 3))%nat%bool with true.
    + replace (r * 3 + a - r * 3)%nat with a by lia. replace (c * 3 + b - c * 3)%nat with b by lia. auto.
    + symmetry. rewrite !andb_true_iff, !Nat.leb_le, !Nat.ltb_lt. lia.
  - replace ((r * 3 <=? r * 3 + a) && (r * 3 + a <? r * 3 + 3) && (c * 3 <=? q * 3 + b) && (q * 3 + b <? c * 3 + 3))%nat%bool with false; auto.
    symmetry. destruct (Nat.leb_spec (c * 3) (q * 3 + b)); [|rewrite andb_false_r; auto]. destruct (Nat.ltb_spec (q * 3 + b) (c * 3 + 3)); [lia|]. rewrite andb_false_r; auto.
  - replace ((r * 3 <=? p * 3 + a) && (p * 3 + a <? r * 3 + 3) && (c * 3 <=? q * 3 + b) && (q * 3 + b <? c * 3 + 3))%nat%bool with false; auto.
    symmetry. destruct (Nat.leb_spec (r * 3) (p * 3 + a)); [|auto]. destruct (Nat.ltb_spec (p * 3 + a) (r * 3 + 3)); [lia|auto].
Qed.

(** what the code subtracts at (p, a; q, b) for one chain *)
Definition cterm (s : skeleton) (c : chain) (p a q b : nat) : R :=
  if Nat.leb p q then vdot (vcross (waxis s p b) (dcol s c q a)) (res s c) else vdot (vcross (waxis s q a) (dcol s c p b)) (res s c).

Lemma hess_block_at u v w x y z r a b : (a < 3)%nat -> (b < 3)%nat ->
  hess_block u v w x y z r a b = vdot (vcross (apick b (u, v, w)) (apick a (x, y, z))) r.
Proof. intros Ha Hb. destruct a as [|[|[|]]]; try lia; destruct b as [|[|[|]]]; try lia; reflexivity. Qed.

Section Chain.
Context (s : skeleton) (J : matrix) (row : nat) (c : chain).
Context (HT : bone_tree s) (HC : codes_ok s) (HP : posed s).
Context (HJ : forall k i, In k (ch_bones c) -> (i < 3)%nat -> get_col3 J row (k * 3 + i) = dcol s c k i).
Context (HB : forall k, In k (ch_bones c) -> (k < length s)%nat).

Lemma hessian_pair_at H k h : In k (ch_bones c) -> In h (ch_bones c) -> exists H', hessian_pair s J row (res s c) k H h = Some H' /\ m_rows H' = m_rows H /\ m_cols H' = m_cols H /\
  forall p a q b, (a < 3)%nat -> (b < 3)%nat -> m_at H' (p * 3 + a) (q * 3 + b) = m_at H (p * 3 + a) (q * 3 + b) -
    (if (Nat.leb h k && ((Nat.eqb p h && Nat.eqb q k) || (Nat.eqb p k && Nat.eqb q h)))%bool then cterm s c p a q b else 0).
Proof.
  intros Ik Ih. unfold hessian_pair. destruct (Nat.ltb_spec k h) as [L|L].
  - exists H. split; [auto|split; [auto|split; [auto|]]]. intros. replace (h <=? k)%nat with false by (symmetry; apply Nat.leb_gt; lia). cbn [andb]. ring.
  - destruct (axes_exist s h HT HC HP (HB h Ih)) as (bh & t & Eh & Et). rewrite Eh, Et. destruct t as [[u v] w].
    destruct (code_get bh (HC h bh Eh) 2 ltac:(lia)) as (_ & _ & G2).
    assert (E2 : exists g, get_rotation_gamma bh = Some g). { unfold get_rotation_gamma. rewrite G2. eauto. } destruct E2 as (g & ->).
    assert (AX : forall o, waxis s h o = apick o (u, v, w)). { intros o. unfold waxis. rewrite Eh, Et. auto. }
    assert (JX : forall o, (o < 3)%nat -> apick o (get_col3 J row (k * 3), get_col3 J row (k * 3 + 1), get_col3 J row (k * 3 + 2)) = dcol s c k o).
    { intros o Ho. rewrite <- (HJ k o Ik Ho). destruct o as [|[|[|]]]; try lia; cbn [apick]; auto. rewrite Nat.add_0_r. auto. }
    eexists. split; [reflexivity|]. split; [destruct (Nat.eqb h k); reflexivity|]. split; [destruct (Nat.eqb h k); reflexivity|].
    intros p a q b Ha Hb. replace (h <=? k)%nat with true by (symmetry; apply Nat.leb_le; lia). cbn [andb].
    destruct (Nat.eqb_spec h k) as [->|Nhk].
    + rewrite sub_block_at by auto. rewrite orb_diag. destruct (Nat.eqb_spec p k) as [->|Np]; [destruct (Nat.eqb_spec q k) as [->|Nq]|]; cbn [andb].
      * rewrite hess_block_at, JX, <- AX by auto. unfold cterm. rewrite Nat.leb_refl. auto.
      * ring.
      * ring.
    + rewrite !sub_block_at by auto.
      destruct (Nat.eqb_spec p k) as [Ep|Np].
      * subst p. replace (k =? h)%nat with false by (symmetry; apply Nat.eqb_neq; lia). cbn [andb orb].
        destruct (Nat.eqb_spec q h) as [Eq|Nq]; [|ring]. subst q.
        rewrite hess_block_at, JX, <- AX by auto. unfold cterm. replace (k <=? h)%nat with false by (symmetry; apply Nat.leb_gt; lia). ring.
      * cbn [andb]. rewrite orb_false_r. destruct (Nat.eqb_spec p h) as [Ep|Nph]; cbn [andb]; [|ring]. subst p.
        destruct (Nat.eqb_spec q k) as [Eq|Nq]; cbn [andb]; [|ring]. subst q.
        rewrite hess_block_at, JX, <- AX by auto. unfold cterm. replace (h <=? k)%nat with true by (symmetry; apply Nat.leb_le; lia). ring.
Qed.

Lemma hessian_inner k : In k (ch_bones c) -> forall l H, NoDup l -> incl l (ch_bones c) -> exists H', loop (hessian_pair s J row (res s c) k) l H = Some H' /\ m_rows H' = m_rows H /\ m_cols H' = m_cols H /\
  forall p a q b, (a < 3)%nat -> (b < 3)%nat -> m_at H' (p * 3 + a) (q * 3 + b) = m_at H (p * 3 + a) (q * 3 + b) -
    (if ((Nat.eqb (Nat.max p q) k) && memb (Nat.min p q) l)%bool then cterm s c p a q b else 0).
Proof.
  intros Ik. induction l as [|h l IH]; intros H ND HI.
  - exists H. cbn. repeat split; auto. intros. rewrite andb_false_r. ring.
  - inversion ND as [|? ? N1 N2]; subst. destruct (hessian_pair_at H k h Ik (HI h (or_introl eq_refl))) as (H1 & E1 & R1 & C1 & V1).
    destruct (IH H1 N2 (fun x X => HI x (or_intror X))) as (H2 & E2 & R2 & C2 & V2).
    exists H2. cbn [loop]. rewrite E1. split; [auto|split; [congruence|split; [congruence|]]]. intros p a q b Ha Hb. rewrite V2, V1 by auto.
    change (memb (Nat.min p q) (h :: l)) with ((Nat.min p q =? h)%nat || memb (Nat.min p q) l)%bool.
    assert (ML : forall x, x = h -> memb x l = false). { intros x ->. destruct (memb h l) eqn:M; auto. apply memb_in in M. contradiction. }
    destruct (Nat.eqb_spec (Nat.max p q) k) as [EM|NM]; cbn [andb].
    + destruct (Nat.eqb_spec (Nat.min p q) h) as [Em|Nm].
      * rewrite (ML _ Em). cbn [orb].
        replace ((h <=? k)%nat && ((p =? h)%nat && (q =? k)%nat || (p =? k)%nat && (q =? h)%nat))%bool with true; [ring|].
        symmetry. apply andb_true_iff. split; [apply Nat.leb_le; lia|]. apply orb_true_iff. destruct (le_lt_dec p q); [left|right]; apply andb_true_iff; split; apply Nat.eqb_eq; lia.
      * cbn [orb]. replace ((h <=? k)%nat && ((p =? h)%nat && (q =? k)%nat || (p =? k)%nat && (q =? h)%nat))%bool with false; [ring|].
        symmetry. destruct (Nat.leb_spec h k); auto. cbn [andb]. apply orb_false_iff.
        destruct (Nat.eqb_spec p h), (Nat.eqb_spec q k), (Nat.eqb_spec p k), (Nat.eqb_spec q h); split; auto; lia.
    + replace ((h <=? k)%nat && ((p =? h)%nat && (q =? k)%nat || (p =? k)%nat && (q =? h)%nat))%bool with false; [ring|].
      symmetry. destruct (Nat.leb_spec h k); auto. cbn [andb]. apply orb_false_iff.
      destruct (Nat.eqb_spec p h), (Nat.eqb_spec q k), (Nat.eqb_spec p k), (Nat.eqb_spec q h); split; auto; lia.
Qed.

Lemma hessian_outer (ND0 : NoDup (ch_bones c)) : forall l H, NoDup l -> incl l (ch_bones c) -> exists H', loop (fun H k => loop (hessian_pair s J row (res s c) k) (ch_bones c) H) l H = Some H' /\ m_rows H' = m_rows H /\ m_cols H' = m_cols H /\
  forall p a q b, (a < 3)%nat -> (b < 3)%nat -> m_at H' (p * 3 + a) (q * 3 + b) = m_at H (p * 3 + a) (q * 3 + b) -
    (if (memb (Nat.max p q) l && memb (Nat.min p q) (ch_bones c))%bool then cterm s c p a q b else 0).
Proof.
  induction l as [|k l IH]; intros H ND HI.
  - exists H. cbn. repeat split; auto. intros. ring.
  - inversion ND as [|? ? N1 N2]; subst. destruct (hessian_inner k (HI k (or_introl eq_refl)) (ch_bones c) H ND0 (incl_refl _)) as (H1 & E1 & R1 & C1 & V1).
    destruct (IH H1 N2 (fun x X => HI x (or_intror X))) as (H2 & E2 & R2 & C2 & V2).
    exists H2. cbn [loop]. rewrite E1. split; [auto|split; [congruence|split; [congruence|]]]. intros p a q b Ha Hb. rewrite V2, V1 by auto.
    change (memb (Nat.max p q) (k :: l)) with ((Nat.max p q =? k)%nat || memb (Nat.max p q) l)%bool.
    destruct (Nat.eqb_spec (Nat.max p q) k) as [EM|NM]; cbn [andb orb]; [|ring].
    replace (memb (Nat.max p q) l) with false; [cbn [andb]; ring|]. symmetry. destruct (memb (Nat.max p q) l) eqn:M; auto. apply memb_in in M. rewrite EM in M. contradiction.
Qed.
End Chain.

Lemma hessian_chains s J : bone_tree s -> codes_ok s -> posed s -> forall cs c0 H,
  (forall c, In c cs -> serial s c) ->
  (forall n c e k i, nth_error cs n = Some c -> get_end_effector c s = Some e -> (i < 3)%nat -> get_col3 J ((c0 + n) * 3) (k * 3 + i) = if in_dec Nat.eq_dec k (ch_bones c) then jcol s e k i else vzero) ->
  exists H', loop (hessian_chain s J) cs (H, (c0 * 3)%nat) = Some (H', ((c0 + length cs) * 3)%nat) /\ m_rows H' = m_rows H /\ m_cols H' = m_cols H /\
  forall p a q b, (a < 3)%nat -> (b < 3)%nat -> m_at H' (p * 3 + a) (q * 3 + b) = m_at H (p * 3 + a) (q * 3 + b) -
    lsum (map (fun c => if (memb p (ch_bones c) && memb q (ch_bones c))%bool then cterm s c p a q b else 0) cs).
Proof.
  intros HT HC HP. induction cs as [|c cs IH]; intros c0 H HS HJ.
  - exists H. cbn. rewrite Nat.add_0_r. repeat split; auto. intros. ring.
  - pose proof (HS c (or_introl eq_refl)) as Sc. destruct (end_effector_exists s c (serial_fits s c HT Sc)) as (e & Ee).
    assert (Er : vsub (ch_goal c) e = res s c) by (unfold res; rewrite Ee; auto).
    destruct Sc as (n & Pn).
    destruct (hessian_outer s J (c0 * 3) c HT HC HP) with (l := ch_bones c) (H := H) as (H1 & E1 & R1 & C1 & V1).
    + intros k i _ Hi. pose proof (HJ 0%nat c e k i eq_refl Ee Hi) as X. rewrite Nat.add_0_r in X. rewrite X. unfold dcol. rewrite Ee. auto.
    + intros k Hk. eapply path_bound; eauto.
    + eapply path_nodup; eauto.
    + eapply path_nodup; eauto.
    + apply incl_refl.
    + destruct (IH (S c0) H1) as (H2 & E2 & R2 & C2 & V2).
      * intros d Hd. apply HS. right; auto.
      * intros n' d e' k i Hn He Hi. specialize (HJ (S n') d e' k i Hn He Hi). replace (S c0 + n')%nat with (c0 + S n')%nat by lia. auto.
      * exists H2. cbn [loop]. unfold hessian_chain at 1. rewrite Ee. cbn [fst snd]. rewrite Er, E1. replace (c0 * 3 + 3)%nat with (S c0 * 3)%nat by lia. rewrite E2.
        split; [f_equal; f_equal; cbn [length]; lia|]. split; [congruence|split; [congruence|]]. intros p a q b Ha Hb. rewrite V2, V1 by auto. cbn [map]. change (lsum (?x :: ?l)) with (x + lsum l).
        replace (memb (Nat.max p q) (ch_bones c) && memb (Nat.min p q) (ch_bones c))%bool with (memb p (ch_bones c) && memb q (ch_bones c))%bool; [ring|].
        destruct (le_lt_dec p q); [rewrite Nat.max_r, Nat.min_l by lia; apply andb_comm|rewrite Nat.max_l, Nat.min_r by lia; auto].
Qed.

Lemma gram_sum s cs J : (forall n c e k i, nth_error cs n = Some c -> get_end_effector c s = Some e -> (i < 3)%nat -> get_col3 J (n * 3) (k * 3 + i) = if in_dec Nat.eq_dec k (ch_bones c) then jcol s e k i else vzero) ->
  m_rows J = (length cs * 3)%nat -> (forall c, In c cs -> chain_fits s c) ->
  forall p a q b, (a < 3)%nat -> (b < 3)%nat -> m_at (mat_gram J) (p * 3 + a) (q * 3 + b) = lsum (map (fun c => vdot (dcol s c p a) (dcol s c q b)) cs).
Proof.
  intros V R Hc p a q b Ha Hb. cbn [mat_gram m_at]. rewrite R, sum_n_three.
  destruct cs as [|d cs0]; [reflexivity|]. set (cs := d :: cs0) in *.
  rewrite <- (sum_n_list cs _ d). apply sum_n_ext. intros n Hn.
  pose proof (nth_error_nth' cs d Hn) as Hnth. destruct (end_effector_exists s (nth n cs d) (Hc _ (nth_In _ _ Hn))) as (e & Ee).
  pose proof (V n _ e p a Hnth Ee Ha) as X. pose proof (V n _ e q b Hnth Ee Hb) as Y. unfold dcol. rewrite Ee. rewrite <- X, <- Y. unfold get_col3, vdot. cbn. ring.
Qed.

Lemma lsum_sub {A} (f g : A -> R) l : lsum (map f l) - lsum (map g l) = lsum (map (fun x => f x - g x) l).
Proof. induction l as [|x l IH]; [cbn; ring|]. cbn [map]. change (lsum (?x :: ?l)) with (x + lsum l). rewrite <- IH. ring. Qed.

Lemma hessian_ok s cs : bone_tree s -> codes_ok s -> posed s -> (forall c, In c cs -> serial s c) ->
  exists J H, compute_jacobian cs s = Some J /\ compute_hessian cs s J = Some H /\ m_rows H = (length s * 3)%nat /\ m_cols H = (length s * 3)%nat /\
  forall p a q b, (a < 3)%nat -> (b < 3)%nat -> m_at H (p * 3 + a) (q * 3 + b) =
    lsum (map (fun c => vdot (dcol s c p a) (dcol s c q b) - if (memb p (ch_bones c) && memb q (ch_bones c))%bool then cterm s c p a q b else 0) cs).
Proof.
  intros HT HC HP Hc. assert (Hf : forall c, In c cs -> chain_fits s c) by (intros; apply serial_fits; auto).
  destruct (jacobian_ok s cs HT HC HP Hf) as (J & EJ & R & C & V).
  destruct (hessian_chains s J HT HC HP cs 0%nat (mat_gram J) Hc) as (H & EH & RH & CH & VH); [exact V|].
  exists J, H. split; [auto|]. split; [unfold compute_hessian; cbn [Nat.mul] in EH; rewrite EH; auto|]. split; [rewrite RH; exact C|]. split; [rewrite CH; exact C|].
  intros p a q b Ha Hb. rewrite VH by auto. rewrite (gram_sum s cs J) by auto. apply lsum_sub.
Qed.
