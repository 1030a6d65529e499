(** Proofs about the polynomial model *)
From Verif Require Import Base PolyModel.
From Coq Require Import Permutation String FinFun List.
Open Scope R_scope.

Lemma powers_in n i j : In (i, j) (powers_nat n) <-> (i + j <= n)%nat.
Proof.
  unfold powers_nat. rewrite in_flat_map. split.
  - intros (p & Hp & H). apply in_seq in Hp. apply in_map_iff in H. destruct H as (k & E & Hk).
    apply in_seq in Hk. injection E; intros; subst. lia.
  - intros H. exists (i + j)%nat. split; [apply in_seq; lia|]. apply in_map_iff. exists j.
    split; [f_equal; lia|apply in_seq; lia].
Qed.
Lemma NoDup_app_intro {A} (l l' : list A) : NoDup l -> NoDup l' -> (forall x, In x l -> ~ In x l') -> NoDup (l ++ l').
Proof.
  induction l as [|a l IH]; cbn; auto. intros H1 H2 H3. inversion H1; subst. constructor.
  - rewrite in_app_iff. intros [|]; [auto|]. apply (H3 a); auto.
  - apply IH; auto.
Qed.
Lemma NoDup_flat_map {A B} (f : A -> list B) l :
  NoDup l -> (forall a, In a l -> NoDup (f a)) ->
  (forall a a' b, In a l -> In a' l -> In b (f a) -> In b (f a') -> a = a') -> NoDup (flat_map f l).
Proof.
  induction l as [|a l IH]; cbn; intros Hl H1 H2; [constructor|]. inversion Hl; subst.
  apply NoDup_app_intro; auto.
  - apply IH; auto. intros; eapply H2; eauto.
  - intros b Hb Hb'. apply in_flat_map in Hb'. destruct Hb' as (a' & Ha' & Hb'').
    assert (a = a') by (eapply H2; eauto). subst; contradiction.
Qed.
Lemma powers_nodup n : NoDup (powers_nat n).
Proof.
  unfold powers_nat. apply NoDup_flat_map.
  - apply seq_NoDup.
  - intros p _. apply Injective_map_NoDup; [|apply seq_NoDup]. intros a b E. injection E; auto.
  - intros p p' [i j] _ _ H H'. apply in_map_iff in H, H'. destruct H as (k & E & Hk), H' as (k' & E' & Hk').
    apply in_seq in Hk, Hk'. injection E; injection E'; intros; subst. lia.
Qed.
Lemma comb_1 n : comb n 1 = n.
Proof. induction n as [|n IH]; auto. cbn [comb]. destruct n; [reflexivity|]. rewrite IH. cbn; lia. Qed.
Lemma comb_2 n : (2 * comb (n + 2) 2 = (n + 1) * (n + 2))%nat.
Proof.
  induction n as [|n IH]; [reflexivity|].
  replace (S n + 2)%nat with (S (n + 2)) by lia.
  assert (E : comb (S (n + 2)) 2 = (comb (n+2) 1 + comb (n + 2) 2)%nat) by reflexivity.
  rewrite E, comb_1. lia.
Qed.
Lemma flat_map_length_sum {A B} (f : A -> list B) l : length (flat_map f l) = fold_right plus 0%nat (map (fun a => length (f a)) l).
Proof. induction l as [|a l IH]; cbn; auto. rewrite app_length, IH; auto. Qed.
Lemma powers_length n : length (powers_nat n) = comb (n + 2) 2.
Proof.
  assert (H : forall m, (2 * length (powers_nat m) = (m + 1) * (m + 2))%nat).
  { intros m. unfold powers_nat. rewrite flat_map_length_sum.
    assert (G : forall k s, (2 * fold_right plus 0 (map (fun a => length (map (fun j => (a - j, j)%nat) (seq 0 (a + 1)))) (seq s k)) = k * (2 * s + k + 1))%nat).
    { induction k as [|k IH]; intros s; [reflexivity|]. cbn [seq map fold_right]. rewrite map_length, seq_length.
      specialize (IH (S s)). rewrite Nat.mul_add_distr_l, IH. lia. }
    rewrite G. lia. }
  pose proof (H n). pose proof (comb_2 n). lia.
Qed.

(** ** sums *)
Lemma np_sum_app a b : np_sum (a ++ b) = np_sum a + np_sum b.
Proof. induction a as [|x a IH]; cbn; [ring|rewrite IH; ring]. Qed.
Lemma np_sum_perm l l' : Permutation l l' -> np_sum l = np_sum l'.
Proof. induction 1; cbn; lra. Qed.

Definition mono (x y : R) (pw : nat * nat) : R := x ^ fst pw * y ^ snd pw.
Lemma evaluate_combine o ps cs x y :
  evaluate (mkP o ps cs) x y = np_sum (map (fun t => fst t * mono x y (snd t)) (combine cs ps)).
Proof.
  unfold evaluate; cbn. revert ps; induction cs as [|c cs IH]; intros [|p ps]; cbn; auto. rewrite IH. reflexivity.
Qed.

(** coefficient stored for monomial (i,j): first match in the parallel arrays *)
Fixpoint coef_of (ps : list (nat * nat)) (cs : list R) (pw : nat * nat) : R :=
  match ps, cs with
  | p :: ps', c :: cs' => if (Nat.eqb (fst p) (fst pw) && Nat.eqb (snd p) (snd pw))%bool then c else coef_of ps' cs' pw
  | _, _ => 0
  end.
Lemma pw_eqb p q : (Nat.eqb (fst p) (fst q) && Nat.eqb (snd p) (snd q))%bool = true <-> p = q.
Proof.
  rewrite andb_true_iff, !Nat.eqb_eq. destruct p, q; cbn. split; [intros [-> ->]; auto|intros E; injection E; auto].
Qed.
Lemma combine_coef ps : forall cs, NoDup ps -> length cs = length ps ->
  combine cs ps = map (fun p => (coef_of ps cs p, p)) ps.
Proof.
  induction ps as [|p ps IH]; intros [|c cs] Hn Hl; cbn in *; auto; try lia.
  inversion Hn; subst.
  assert (E : (Nat.eqb (fst p) (fst p) && Nat.eqb (snd p) (snd p))%bool = true) by (apply pw_eqb; auto). rewrite E.
  f_equal. rewrite IH by (auto; lia). apply map_ext_in. intros q Hq.
  destruct (Nat.eqb (fst p) (fst q) && Nat.eqb (snd p) (snd q))%bool eqn:E'; auto.
  apply pw_eqb in E'; subst; contradiction.
Qed.

(** spec: the double sum over i <= n, j <= n - i *)
Fixpoint sum_upto (n : nat) (f : nat -> R) : R := match n with O => 0 | S m => sum_upto m f + f m end.
Lemma sum_upto_list n f : sum_upto n f = np_sum (map f (seq 0 n)).
Proof.
  induction n as [|n IH]; [reflexivity|]. rewrite seq_S, map_app, np_sum_app, <- IH. cbn; ring.
Qed.
Definition pairs_ij (n : nat) : list (nat * nat) := flat_map (fun i => map (fun j => (i, j)) (seq 0 (n - i + 1))) (seq 0 (n + 1)).
Lemma pairs_ij_in n i j : In (i, j) (pairs_ij n) <-> (i + j <= n)%nat.
Proof.
  unfold pairs_ij. rewrite in_flat_map. split.
  - intros (p & Hp & H). apply in_seq in Hp. apply in_map_iff in H. destruct H as (k & E & Hk). apply in_seq in Hk.
    injection E; intros; subst; lia.
  - intros H. exists i. split; [apply in_seq; lia|]. apply in_map_iff. exists j. split; auto. apply in_seq; lia.
Qed.
Lemma pairs_ij_nodup n : NoDup (pairs_ij n).
Proof.
  apply NoDup_flat_map; [apply seq_NoDup| |].
  - intros i _. apply Injective_map_NoDup; [|apply seq_NoDup]. intros a b E; injection E; auto.
  - intros a a' [i j] _ _ H H'. apply in_map_iff in H, H'. destruct H as (? & E & _), H' as (? & E' & _). congruence.
Qed.
Lemma sum_flat_map {A B} (g : B -> R) (f : A -> list B) l :
  np_sum (map g (flat_map f l)) = np_sum (map (fun a => np_sum (map g (f a))) l).
Proof. induction l as [|a l IH]; cbn; auto. rewrite map_app, np_sum_app, IH. reflexivity. Qed.
Lemma evaluate_double_sum n cs x y : length cs = length (powers_nat n) ->
  evaluate (mkP (Z.of_nat n) (powers_nat n) cs) x y =
  sum_upto (n + 1) (fun i => sum_upto (n - i + 1) (fun j => coef_of (powers_nat n) cs (i, j) * (x ^ i * y ^ j))).
Proof.
  intros Hl. rewrite evaluate_combine, combine_coef, map_map by (auto using powers_nodup). cbn [fst snd].
  transitivity (np_sum (map (fun p => coef_of (powers_nat n) cs p * mono x y p) (pairs_ij n))).
  - apply np_sum_perm, Permutation_map. apply NoDup_Permutation; auto using powers_nodup, pairs_ij_nodup.
    intros [i j]. rewrite powers_in, pairs_ij_in. tauto.
  - unfold pairs_ij. rewrite sum_flat_map, sum_upto_list. f_equal. apply map_ext. intros i.
    rewrite sum_upto_list, map_map. reflexivity.
Qed.

(** ** derivative *)
Lemma np_multiply_length a : forall b, length a = length b -> length (np_multiply a b) = length b.
Proof. induction a; intros [|y b]; cbn; auto. Qed.
Lemma mono_deriv_x x y pw : derivable_pt_lim (fun t => mono t y pw) x (INR (fst pw) * mono x y (pw_dec 0 pw)).
Proof.
  unfold mono, pw_dec; cbn.
  replace (INR (fst pw) * (x ^ _ * y ^ snd pw)) with ((INR (fst pw) * x ^ pred (fst pw)) * y ^ snd pw + x ^ fst pw * 0).
  - apply (derivable_pt_lim_mult (fun t => t ^ fst pw) (fun _ => y ^ snd pw)); [apply derivable_pt_lim_pow|apply derivable_pt_lim_const].
  - destruct (fst pw) as [|k]; cbn [Nat.eqb pred fst].
    + cbn; ring.
    + replace (S k - 1)%nat with k by lia. ring.
Qed.
Lemma mono_deriv_y x y pw : derivable_pt_lim (fun t => mono x t pw) y (INR (snd pw) * mono x y (pw_dec 1 pw)).
Proof.
  unfold mono, pw_dec; cbn.
  replace (INR (snd pw) * (x ^ fst pw * y ^ _)) with (0 * y ^ snd pw + x ^ fst pw * (INR (snd pw) * y ^ pred (snd pw))).
  - apply (derivable_pt_lim_mult (fun _ => x ^ fst pw) (fun t => t ^ snd pw)); [apply derivable_pt_lim_const|apply derivable_pt_lim_pow].
  - destruct (snd pw) as [|k]; cbn [Nat.eqb pred snd].
    + cbn; ring.
    + replace (S k - 1)%nat with k by lia. ring.
Qed.
Lemma derivative_x P x y : derivable_pt_lim (fun t => evaluate P t y) x (evaluate (derivative_dir P 0) x y).
Proof.
  destruct P as [o ps cs]. unfold derivative_dir; cbn [p_order p_powers p_coef].
  unfold evaluate; cbn [p_coef p_powers].
  revert ps; induction cs as [|c cs IH]; intros [|p ps]; cbn [np_multiply map np_sum]; try apply derivable_pt_lim_const.
  pose proof (mono_deriv_x x y p) as Hm. unfold mono in Hm.
  match goal with |- derivable_pt_lim (fun t => ?A t + ?B t) _ (?a + ?b) => idtac | _ => idtac end.
  apply (derivable_pt_lim_plus (fun t => c * (t ^ fst p * y ^ snd p))
     (fun t => np_sum (np_multiply cs (np_multiply (map (fun pw => t ^ fst pw) ps) (map (fun pw => y ^ snd pw) ps))))).
  - replace (pw_get 0 p) with (fst p) by reflexivity.
    replace (INR (fst p) * c * _) with (0 * (x ^ fst p * y ^ snd p) + c * (INR (fst p) * (x ^ fst (pw_dec 0 p) * y ^ snd (pw_dec 0 p)))) by ring.
    apply (derivable_pt_lim_mult (fun _ => c) (fun t => t ^ fst p * y ^ snd p)); [apply derivable_pt_lim_const|exact Hm].
  - apply IH.
Qed.
Lemma derivative_y P x y : derivable_pt_lim (fun t => evaluate P x t) y (evaluate (derivative_dir P 1) x y).
Proof.
  destruct P as [o ps cs]. unfold derivative_dir; cbn [p_order p_powers p_coef].
  unfold evaluate; cbn [p_coef p_powers].
  revert ps; induction cs as [|c cs IH]; intros [|p ps]; cbn [np_multiply map np_sum]; try apply derivable_pt_lim_const.
  pose proof (mono_deriv_y x y p) as Hm. unfold mono in Hm.
  apply (derivable_pt_lim_plus (fun t => c * (x ^ fst p * t ^ snd p))
     (fun t => np_sum (np_multiply cs (np_multiply (map (fun pw => x ^ fst pw) ps) (map (fun pw => t ^ snd pw) ps))))).
  - replace (pw_get 1 p) with (snd p) by reflexivity.
    replace (INR (snd p) * c * _) with (0 * (x ^ fst p * y ^ snd p) + c * (INR (snd p) * (x ^ fst (pw_dec 1 p) * y ^ snd (pw_dec 1 p)))) by ring.
    apply (derivable_pt_lim_mult (fun _ => c) (fun t => x ^ fst p * t ^ snd p)); [apply derivable_pt_lim_const|exact Hm].
  - apply IH.
Qed.

(** ** interpolation *)
Definition row_dot (r a : list R) : R := np_sum (np_multiply a r).
Definition solves (V : list (list R)) (a b : list R) : Prop :=
  length a = length V /\ map (fun r => row_dot r a) V = b.
Lemma interpolate_correct solve order x v Ps :
  (forall V b a, solve V b = Some a -> solves V a b) ->
  interpolate solve order x v = Some Ps ->
  exists K, number_of_monomial_terms 2 order = Some K /\
  length Ps = length v /\
  forall c k, (c < length v)%nat -> (k < K)%nat ->
    evaluate (nth c Ps (mkP 0 [] [])) (fst (nth k x (0,0))) (snd (nth k x (0,0))) = nth k (nth c v []) 0.
Proof.
  intros Hs E. unfold interpolate in E. destruct (order <=? 0)%Z eqn:Ho; [discriminate|].
  destruct (number_of_monomial_terms 2 order) as [K|] eqn:EK; [|discriminate].
  destruct (Nat.ltb_spec (length x) K) as [|Hx]; [discriminate|].
  destruct (existsb _ v) eqn:Ev; [discriminate|].
  unfold make_vandermonde_matrix, poly_make in E. rewrite Ho, EK in E.
  destruct (poly2_make_monomial_powers order) as [ps|] eqn:Eps; [|discriminate].
  cbn [p_order p_powers] in E.
  destruct (Nat.ltb_spec (length (firstn K x)) K) as [|_]; [discriminate|].
  rewrite firstn_firstn, Nat.min_id in E.
  exists K. split; auto.
  set (V := map (fun pt => map (fun pw => fst pt ^ fst pw * snd pt ^ snd pw) ps) (firstn K x)) in *.
  assert (Hcol : forall col, In col v -> (K <= length col)%nat).
  { intros col Hc. destruct (Nat.ltb_spec (length col) K) as [Hl|]; auto. exfalso.
    assert (existsb (fun col => Nat.ltb (length col) K) v = true); [|congruence].
    apply existsb_exists. exists col; split; auto. apply Nat.ltb_lt; auto. }
  clear Ev. revert Ps E. induction v as [|col v IH]; intros Ps E; cbn [fold_right] in E.
  - injection E as <-. split; auto. cbn; intros; lia.
  - destruct (solve V (firstn K col)) as [a|] eqn:Ea; [|discriminate].
    destruct (fold_right _ (Some []) v) as [Ps'|] eqn:Ef; [|discriminate]. injection E as <-.
    destruct (IH (fun c Hc => Hcol c (or_intror Hc)) Ps' eq_refl) as [IH1 IH2].
    split; [cbn; auto|]. intros [|c] k Hc Hk; cbn [nth]; [|apply IH2; cbn in *; lia].
    destruct (Hs _ _ _ Ea) as [Hl Hm].
    assert (Hk' : nth k (map (fun r => row_dot r a) V) 0 = nth k col 0).
    { rewrite Hm. pose proof (Hcol col (or_introl eq_refl)).
      rewrite <- (firstn_skipn K col) at 2. rewrite app_nth1; auto. rewrite firstn_length; lia. }
    rewrite <- Hk'. unfold V. rewrite map_map.
    assert (Hkx : nth k x (0,0) = nth k (firstn K x) (0,0)).
    { rewrite <- (firstn_skipn K x) at 1. rewrite app_nth1; auto. rewrite firstn_length; lia. }
    rewrite Hkx.
    rewrite nth_indep with (d' := (fun pt => row_dot (map (fun pw => fst pt ^ fst pw * snd pt ^ snd pw) ps) a) (0,0))
      by (rewrite map_length, firstn_length; lia).
    rewrite (map_nth (fun pt => row_dot (map (fun pw => fst pt ^ fst pw * snd pt ^ snd pw) ps) a)).
    unfold row_dot, evaluate; cbn [p_coef p_powers]. f_equal. f_equal.
    clear. induction ps as [|p ps IH]; cbn; auto. rewrite IH; reflexivity.
Qed.

(** ** to_str *)
Lemma to_str_sign_lost ns nstr : poly_to_str ns nstr (mkP 1 (powers_nat 1) [0; 1; 0]) = poly_to_str ns nstr (mkP 1 (powers_nat 1) [0; -1; 0]).
Proof.
  unfold poly_to_str, powers_nat. cbn [seq flat_map map app plus minus combine p_coef p_powers fold_left].
  unfold str_step, term_str; cbn [fst snd]. rewrite Rabs_R0, Rabs_R1.
  replace (Rabs (-1)) with 1 by (rewrite Rabs_left; lra).
  destruct (Rltb_spec 0 0); [lra|]. destruct (Rltb_spec 0 1); [|lra]. destruct (Reqb_spec 1 1); [|lra].
  reflexivity.
Qed.
