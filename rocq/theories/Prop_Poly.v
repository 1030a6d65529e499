(** Property theorems C14, C15, C68: two-dimensional polynomials.
    [poly2_make_monomial_powers], [number_of_monomial_terms], [evaluate], [derivative],
    [interpolate], [poly_to_str] model the API functions.  Specification vocabulary: [sum_upto n f]
    is f 0 + ... + f (n-1); [coef_of ps cs (i,j)] is the coefficient stored beside exponent pair
    (i,j); [solves V a b] says V a = b. *)
From Verif Require Import Base PolyModel PolyProofs.
From Coq Require Import Permutation String List.
Open Scope R_scope.

(** C14 *)
Theorem C14_monomial_powers_complete : forall order ps,
  poly2_make_monomial_powers order = Some ps ->
  (forall i j, In (i, j) ps <-> (Z.of_nat i + Z.of_nat j <= order)%Z) /\
  NoDup ps /\
  number_of_monomial_terms 2 order = Some (List.length ps) /\
  (2 * Z.of_nat (List.length ps) = (order + 1) * (order + 2))%Z.
Proof.
  unfold poly2_make_monomial_powers, number_of_monomial_terms. intros order ps.
  destruct (Z.ltb_spec order 0) as [|Ho]; [discriminate|]. intros E; injection E as <-.
  split; [|split; [apply powers_nodup|]].
  - intros i j. rewrite powers_in. lia.
  - change (2 <? 1)%Z with false. change (3 <? 2)%Z with false. cbv beta iota. rewrite powers_length. split.
    + do 2 f_equal. change (Z.to_nat 2) with 2%nat. lia.
    + pose proof (comb_2 (Z.to_nat order)). nia.
Qed.
Print Assumptions C14_monomial_powers_complete.
Theorem C14_powers_total : forall order, (0 <= order)%Z <-> exists ps, poly2_make_monomial_powers order = Some ps.
Proof.
  unfold poly2_make_monomial_powers. intros order. destruct (Z.ltb_spec order 0); split; intros; try lia; eauto.
  destruct H0; discriminate.
Qed.
Print Assumptions C14_powers_total.
Theorem C14_evaluate_is_the_polynomial : forall n ps cs x y,
  poly2_make_monomial_powers (Z.of_nat n) = Some ps -> List.length cs = List.length ps ->
  evaluate (mkP (Z.of_nat n) ps cs) x y =
  sum_upto (n + 1) (fun i => sum_upto (n - i + 1) (fun j => coef_of ps cs (i, j) * (x ^ i * y ^ j))).
Proof.
  intros n ps cs x y. unfold poly2_make_monomial_powers. destruct (Z.ltb_spec (Z.of_nat n) 0); [lia|].
  rewrite Nat2Z.id. intros E Hl; injection E as <-. exact (evaluate_double_sum n cs x y Hl).
Qed.
Print Assumptions C14_evaluate_is_the_polynomial.
Example C14_nonvacuous :
  poly2_make_monomial_powers 2 = Some [(0,0); (1,0); (0,1); (2,0); (1,1); (0,2)]%nat /\
  number_of_monomial_terms 2 2 = Some 6%nat /\
  coef_of (powers_nat 2) [1;2;3;4;5;6] (1,1)%nat = 5 /\
  evaluate (mkP 2 (powers_nat 2) [1;2;3;4;5;6]) 2 1 = 40.
Proof. repeat split; try reflexivity. unfold evaluate; cbn; ring. Qed.

(** C15 *)
Theorem C15_derivative : forall P x y,
  (exists Px Py, derivative P = [Px; Py] /\
    derivable_pt_lim (fun t => evaluate P t y) x (evaluate Px x y) /\
    derivable_pt_lim (fun t => evaluate P x t) y (evaluate Py x y)).
Proof. intros P x y. do 2 eexists. split; [reflexivity|]. split; [apply derivative_x|apply derivative_y]. Qed.
Print Assumptions C15_derivative.
Theorem C15_interpolate_reproduces_data : forall solve order x v Ps,
  (forall V b a, solve V b = Some a -> solves V a b) ->
  interpolate solve order x v = Some Ps ->
  exists K, number_of_monomial_terms 2 order = Some K /\ List.length Ps = List.length v /\
    (K <= List.length x)%nat /\
    forall c k, (c < List.length v)%nat -> (k < K)%nat ->
      evaluate (nth c Ps (mkP 0 [] [])) (fst (nth k x (0,0))) (snd (nth k x (0,0))) = nth k (nth c v []) 0.
Proof.
  intros solve order x v Ps Hs E. destruct (interpolate_correct solve order x v Ps Hs E) as (K & H1 & H2 & H3).
  exists K; repeat split; auto. unfold interpolate in E. destruct (order <=? 0)%Z; [discriminate|]. rewrite H1 in E.
  destruct (Nat.ltb_spec (List.length x) K); [discriminate|lia].
Qed.
Print Assumptions C15_interpolate_reproduces_data.
(** witness: order 1 through three points of the plane, two value columns *)
Definition C15_solve (V : list (list R)) (b : list R) : option (list R) :=
  match V, b with
  | [[a1;a2;a3];[b1;b2;b3];[c1;c2;c3]], [u;v;w] =>
    if (Reqb a1 1 && Reqb a2 0 && Reqb a3 0 && Reqb b1 1 && Reqb b2 1 && Reqb b3 0 && Reqb c1 1 && Reqb c2 0 && Reqb c3 1)%bool
    then Some [u; v - u; w - u] else None
  | _, _ => None
  end.
Example C15_nonvacuous :
  (forall V b a, C15_solve V b = Some a -> solves V a b) /\
  interpolate C15_solve 1 [(0,0);(1,0);(0,1)] [[5;6;8];[1;1;0]] =
   Some [mkP 1 (powers_nat 1) [5;6-5;8-5]; mkP 1 (powers_nat 1) [1;1-1;0-1]].
Proof.
  split.
  - intros V b a. unfold C15_solve.
    repeat match goal with |- context [match ?x with _ => _ end] => is_var x; destruct x; try discriminate end.
    match goal with |- context [if ?c then _ else _] => destruct c eqn:E; [|discriminate] end.
    intros H; injection H as <-. rewrite !andb_true_iff, !Reqb_true in E. decompose [and] E; subst.
    unfold solves, row_dot; cbn. split; auto. repeat (f_equal; try ring).
  - unfold interpolate, make_vandermonde_matrix.
    change (number_of_monomial_terms 2 1) with (Some 3%nat). change (poly2_make_monomial_powers 1) with (Some (powers_nat 1)).
    cbn.
    replace (1 * 1) with 1 by ring. replace (0 * 1) with 0 by ring. replace (1 * 0) with 0 by ring. replace (1 * 1) with 1 by ring.
    replace (0 * 1) with 0 by ring.
    unfold C15_solve.
    repeat match goal with |- context [Reqb ?a ?b] => destruct (Reqb_spec a b); [|exfalso; lra] end. reflexivity.
Qed.

(** C68: the printed form does not determine the polynomial.  [ns] renders coefficients, [nstr] exponents. *)
Theorem C68_to_str_loses_leading_sign_refuted : forall ns nstr,
  exists P Q, p_powers P = powers_nat 1 /\ p_powers Q = powers_nat 1 /\
    List.length (p_coef P) = 3%nat /\ List.length (p_coef Q) = 3%nat /\
    poly_to_str ns nstr P = poly_to_str ns nstr Q /\
    (forall y, evaluate P 1 y <> evaluate Q 1 y).
Proof.
  intros. exists (mkP 1 (powers_nat 1) [0; 1; 0]), (mkP 1 (powers_nat 1) [0; -1; 0]).
  repeat split; try apply to_str_sign_lost. intros y. unfold evaluate; cbn. lra.
Qed.
Print Assumptions C68_to_str_loses_leading_sign_refuted.
