(** Expanding a vector in an orthonormal frame. *)
From Coq Require Import Reals Nsatz.
From Verif Require Import Base.
Open Scope R_scope.
Lemma frame_expand t b d : vdot t t = 1 -> vdot b b = 1 -> vdot t b = 0 -> let n := vcross t b in
  d = vadd (vadd (vscale (vdot t d) t) (vscale (vdot b d) b)) (vscale (vdot n d) n).
Proof.
  destruct t as [t1 t2 t3], b as [b1 b2 b3], d as [d1 d2 d3]. unfold vdot, vcross, vadd, vscale; cbn. intros H1 H2 H3.
  set (n1 := t2 * b3 - t3 * b2). set (n2 := t3 * b1 - t1 * b3). set (n3 := t1 * b2 - t2 * b1).
  assert (I1 : t1 * t1 + b1 * b1 + n1 * n1 = 1) by (subst n1 n2 n3; nsatz).
  assert (I2 : t2 * t2 + b2 * b2 + n2 * n2 = 1) by (subst n1 n2 n3; nsatz).
  assert (I3 : t3 * t3 + b3 * b3 + n3 * n3 = 1) by (subst n1 n2 n3; nsatz).
  assert (I4 : t1 * t2 + b1 * b2 + n1 * n2 = 0) by (subst n1 n2 n3; nsatz).
  assert (I5 : t1 * t3 + b1 * b3 + n1 * n3 = 0) by (subst n1 n2 n3; nsatz).
  assert (I6 : t2 * t3 + b2 * b3 + n2 * n3 = 0) by (subst n1 n2 n3; nsatz).
  clearbody n1 n2 n3. clear H1 H2 H3. f_equal; nsatz.
Qed.
