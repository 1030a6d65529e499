(** Central differences converge to derivatives (real analysis). *)
From Coq Require Import Reals Lra Psatz.
From Coquelicot Require Import Coquelicot.
Open Scope R_scope.

Definition lim0 (f : R -> R) (l : R) : Prop := forall eps, 0 < eps -> exists d, 0 < d /\ forall h, h <> 0 -> Rabs h < d -> Rabs (f h - l) < eps.

Lemma central_first f x a : derivable_pt_lim f x a -> lim0 (fun h => (f (x + h) - f (x - h)) / (2 * h)) a.
Proof.
  intros D eps He. destruct (D eps He) as (d & Hd). exists d. split; [apply cond_pos|]. intros h N L.
  pose proof (Hd h N L) as P1. pose proof (Hd (- h) ltac:(lra) ltac:(rewrite Rabs_Ropp; auto)) as P2.
  replace ((f (x + h) - f (x - h)) / (2 * h) - a) with ((((f (x + h) - f x) / h - a) + ((f (x + - h) - f x) / - h - a)) / 2) by (replace (x + - h) with (x - h) by ring; field; auto).
  apply Rabs_def2 in P1, P2. apply Rabs_def1; lra.
Qed.

Lemma comp_add f a x l : derivable_pt_lim f (a + x) l -> derivable_pt_lim (fun z => f (a + z)) x l.
Proof.
  intros D eps He. destruct (D eps He) as (d & Hd). exists d. intros h N L. specialize (Hd h N L). replace (a + (x + h)) with (a + x + h) by ring. auto.
Qed.
Lemma comp_sub f a x l : derivable_pt_lim f (a - x) l -> derivable_pt_lim (fun z => f (a - z)) x (- l).
Proof.
  intros D eps He. destruct (D eps He) as (d & Hd). exists d. intros h N L. specialize (Hd (- h) ltac:(lra) ltac:(rewrite Rabs_Ropp; auto)).
  replace ((f (a - (x + h)) - f (a - x)) / h - - l) with (- ((f (a - x + - h) - f (a - x)) / - h - l)) by (replace (a - (x + h)) with (a - x + - h) by ring; field; auto).
  rewrite Rabs_Ropp. auto.
Qed.

Lemma central_second f g x b : (forall y, derivable_pt_lim f y (g y)) -> derivable_pt_lim g x b ->
  lim0 (fun h => (f (x + h) - 2 * f x + f (x - h)) / (h * h)) b.
Proof.
  intros D1 D2 eps He. destruct (central_first g x b D2 eps He) as (d & Hd0 & Hd). exists d. split; auto.
  assert (POS : forall h, 0 < h -> h < d -> Rabs ((f (x + h) - 2 * f x + f (x - h)) / (h * h) - b) < eps).
  { intros h Hh L. set (phi := fun z => f (x + z) + f (x - z)).
    assert (DP : forall z, derivable_pt_lim phi z (g (x + z) - g (x - z))).
    { intros z. unfold phi. replace (g (x + z) - g (x - z)) with (g (x + z) + - g (x - z)) by ring.
      apply (derivable_pt_lim_plus (fun z => f (x + z)) (fun z => f (x - z))); [apply comp_add; auto|apply comp_sub; auto]. }
    set (psi := fun z => phi z * (h * h) - (phi h - phi 0) * (z * z)).
    assert (DS : forall z, derivable_pt_lim psi z ((g (x + z) - g (x - z)) * (h * h) - (phi h - phi 0) * (z + z))).
    { intros z. unfold psi. apply (derivable_pt_lim_minus (fun z => phi z * (h * h)) (fun z => (phi h - phi 0) * (z * z))).
      - replace ((g (x + z) - g (x - z)) * (h * h)) with ((g (x + z) - g (x - z)) * (h * h) + phi z * 0) by ring.
        apply (derivable_pt_lim_mult phi (fun _ => h * h)); [apply DP|apply derivable_pt_lim_const].
      - apply (derivable_pt_lim_scal (fun z => z * z)). replace (z + z) with (1 * z + z * 1) by ring.
        apply (derivable_pt_lim_mult (fun z => z) (fun z => z)); apply derivable_pt_lim_id. }
    destruct (MVT_cor2 psi _ 0 h Hh (fun c _ => DS c)) as (c & E & C1 & C2).
    assert (Z : (g (x + c) - g (x - c)) * (h * h) - (phi h - phi 0) * (c + c) = 0).
    { apply Rmult_eq_reg_r with (h - 0); [|lra]. rewrite <- E. unfold psi. ring. }
    replace ((f (x + h) - 2 * f x + f (x - h)) / (h * h)) with ((g (x + c) - g (x - c)) / (2 * c)).
    - apply Hd; [lra|]. rewrite Rabs_right; lra.
    - unfold phi in Z. replace (x + 0) with x in Z by ring. replace (x - 0) with x in Z by ring.
      assert (0 < 2 * c * (h * h)) by (apply Rmult_lt_0_compat; nra).
      apply Rmult_eq_reg_r with (2 * c * (h * h)); [|lra].
      transitivity ((g (x + c) - g (x - c)) * (h * h)); [field; lra|]. transitivity ((f (x + h) - 2 * f x + f (x - h)) * (c + c)); [|field; lra]. lra. }
  intros h N L. destruct (Rlt_dec 0 h) as [P|P].
  - apply POS; auto. rewrite Rabs_right in L; lra.
  - replace ((f (x + h) - 2 * f x + f (x - h)) / (h * h)) with ((f (x + - h) - 2 * f x + f (x - - h)) / (- h * - h)).
    + apply POS; [lra|]. rewrite Rabs_left in L; lra.
    + replace (x + - h) with (x - h) by ring. replace (x - - h) with (x + h) by ring. field; auto.
Qed.

Lemma central_mixed (f g k : R -> R -> R) x y :
  (forall a b, derivable_pt_lim (fun z => f z b) a (g a b)) -> (forall a b, derivable_pt_lim (fun z => g a z) b (k a b)) -> continuity_2d_pt k x y ->
  lim0 (fun h => (f (x + h) (y + h) - f (x + h) (y - h) - f (x - h) (y + h) + f (x - h) (y - h)) / (4 * h * h)) (k x y).
Proof.
  intros D1 D2 C eps He. destruct (C (mkposreal eps He)) as (d & Hd). exists d. split; [apply cond_pos|].
  assert (POS : forall h, 0 < h -> h < d -> Rabs ((f (x + h) (y + h) - f (x + h) (y - h) - f (x - h) (y + h) + f (x - h) (y - h)) / (4 * h * h) - k x y) < eps).
  { intros h Hh L. set (phi := fun z => f z (y + h) - f z (y - h)).
    assert (DP : forall z, derivable_pt_lim phi z (g z (y + h) - g z (y - h))).
    { intros z. apply (derivable_pt_lim_minus (fun z => f z (y + h)) (fun z => f z (y - h))); apply D1. }
    destruct (MVT_cor2 phi _ (x - h) (x + h) ltac:(lra) (fun c _ => DP c)) as (c & E & C1 & C2).
    destruct (MVT_cor2 (g c) _ (y - h) (y + h) ltac:(lra) (fun b _ => D2 c b)) as (e & E' & C3 & C4).
    rewrite E' in E. unfold phi in E.
    replace ((f (x + h) (y + h) - f (x + h) (y - h) - f (x - h) (y + h) + f (x - h) (y - h)) / (4 * h * h)) with (k c e).
    - apply Hd; apply Rabs_def1; lra.
    - replace (f (x + h) (y + h) - f (x + h) (y - h) - f (x - h) (y + h) + f (x - h) (y - h)) with (f (x + h) (y + h) - f (x + h) (y - h) - (f (x - h) (y + h) - f (x - h) (y - h))) by ring.
      rewrite E. field. lra. }
  intros h N L. destruct (Rlt_dec 0 h) as [P|P].
  - apply POS; auto. rewrite Rabs_right in L; lra.
  - replace ((f (x + h) (y + h) - f (x + h) (y - h) - f (x - h) (y + h) + f (x - h) (y - h)) / (4 * h * h)) with ((f (x + - h) (y + - h) - f (x + - h) (y - - h) - f (x - - h) (y + - h) + f (x - - h) (y - - h)) / (4 * - h * - h)).
    + apply POS; [lra|]. rewrite Rabs_left in L; lra.
    + replace (x + - h) with (x - h) by ring. replace (x - - h) with (x + h) by ring. replace (y + - h) with (y - h) by ring. replace (y - - h) with (y + h) by ring. field; auto.
Qed.
