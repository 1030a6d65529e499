(** from_matrix / to_matrix round trip *)
From Verif Require Import Base QuatModel QuatProofs.
Open Scope R_scope.

(** generic reconstruction: if [4 q q^T] matches the entries then q is unit and umat q = M *)
Lemma outer_reconstruct M q :
  4 * (qs q * qs q) = 1 + m00 M + m11 M + m22 M ->
  4 * (qx q * qx q) = 1 + m00 M - m11 M - m22 M ->
  4 * (qy q * qy q) = 1 - m00 M + m11 M - m22 M ->
  4 * (qz q * qz q) = 1 - m00 M - m11 M + m22 M ->
  4 * (qs q * qx q) = m21 M - m12 M -> 4 * (qs q * qy q) = m02 M - m20 M -> 4 * (qs q * qz q) = m10 M - m01 M ->
  4 * (qx q * qy q) = m01 M + m10 M -> 4 * (qx q * qz q) = m02 M + m20 M -> 4 * (qy q * qz q) = m12 M + m21 M ->
  is_unit q /\ umat q = M.
Proof.
  intros. split.
  - unfold is_unit, qdot. lra.
  - apply mat3_eq; unfold umat; cbn; nra || lra.
Qed.

Lemma half_r a : 0 < a -> let r := sqrt a in (1/2 * r) * (1/2 * r) = a / 4 /\ ((1/2) / r) * ((1/2) / r) = / (4 * a) /\ (1/2*r) * ((1/2)/r) = 1/4.
Proof.
  intros Ha r. assert (Hr : 0 < r) by (apply sqrt_lt_R0; auto).
  assert (E : r * r = a) by (apply sqrt_sqrt; lra).
  repeat split.
  - replace (1/2*r*(1/2*r)) with (r*r/4) by field. rewrite E; reflexivity.
  - replace ((1/2)/r*((1/2)/r)) with (/(4*(r*r))) by (field; lra). rewrite E; reflexivity.
  - field; lra.
Qed.

Lemma prod_div a b c d : 0 < d -> a * b = d * c -> 4 * (a * b * / (4 * d)) = c.
Proof. intros Hd E. rewrite E. field. lra. Qed.

Ltac outer_tac Ha :=
  match goal with |- context [sqrt ?a] =>
    let H := fresh in pose proof (half_r a Ha) as H; cbv zeta in H;
    set (p := 1/2 * sqrt a) in *; set (r := (1/2) / sqrt a) in *;
    destruct H as (?Hp & ?Hr & ?Hpr)
  end.

Lemma from_matrix_correct M : is_rotation M ->
  exists q, q_from_matrix M = Some q /\ is_unit q /\ umat q = M.
Proof.
  intros HR. pose proof (rotation_outer M HR) as HO. cbv zeta in HO.
  destruct HO as ((B1 & B2 & B3 & B4 & B5 & B6) & (C1 & C2 & C3 & C4 & C5 & C6 & C7 & C8 & C9 & C10 & C11 & C12)).
  unfold q_from_matrix. cbv zeta.
  assert (G : forall a (k : R -> R -> quat), 0 < a ->
     (let p := 1/2 * sqrt a in let r := (1/2) / sqrt a in is_unit (k p r) /\ umat (k p r) = M) ->
     exists q, q_half_over a k = Some q /\ is_unit q /\ umat q = M).
  { intros a k Ha [H1 H2]. unfold q_half_over. cbv zeta. destruct (Rltb_spec a 0); [lra|].
    destruct (Reqb_spec (sqrt a) 0) as [E|E].
    { pose proof (sqrt_lt_R0 a Ha); lra. }
    eexists; split; [reflexivity|]. split; auto. }
  assert (Hsq : forall a p r, p * p = a / 4 -> r * r = / (4 * a) -> p * r = 1/4 -> 0 < a ->
     forall u v w, u * v = a * w -> 4 * ((u * r) * (v * r)) = w).
  { intros a p r Hp Hr Hpr Ha u v w E. replace (u*r*(v*r)) with (u*v*(r*r)) by ring. rewrite Hr.
    apply prod_div; auto. }
  assert (Hpu : forall p r, p * r = 1/4 -> forall u, 4 * (p * (u * r)) = u).
  { intros p r Hpr u. replace (p * (u*r)) with (p*r*u) by ring. rewrite Hpr. field. }
  destruct (Rltb_spec (m00 M + m11 M + m22 M) 0) as [Htr|Htr].
  - destruct (Rltb_spec (m00 M) (m11 M)) as [H01|H01]; cbv iota;
    match goal with |- context [Rltb ?x (m22 M)] => destruct (Rltb_spec x (m22 M)) as [Hi2|Hi2] end.
    1,3: apply G; [lra|]; intros p r; destruct (half_r (m22 M - (m00 M + m11 M) + 1)) as (Hp & Hr & Hpr); [lra|];
      fold p in Hp, Hpr; fold r in Hr, Hpr;
      pose proof (Hsq _ p r Hp Hr Hpr ltac:(lra)) as Hs; pose proof (Hpu p r Hpr) as Hpu';
      apply outer_reconstruct; cbn [qs qx qy qz];
      first [ lra | rewrite Hpu'; lra | rewrite (Rmult_comm _ p), Hpu'; lra | apply Hs; lra ].
    1: apply G; [lra|]; intros p r; destruct (half_r (m11 M - (m22 M + m00 M) + 1)) as (Hp & Hr & Hpr); [lra|];
      fold p in Hp, Hpr; fold r in Hr, Hpr;
      pose proof (Hsq _ p r Hp Hr Hpr ltac:(lra)) as Hs; pose proof (Hpu p r Hpr) as Hpu';
      apply outer_reconstruct; cbn [qs qx qy qz];
      first [ lra | rewrite Hpu'; lra | rewrite (Rmult_comm _ p), Hpu'; lra | apply Hs; lra ].
    1: apply G; [lra|]; intros p r; destruct (half_r (m00 M - (m11 M + m22 M) + 1)) as (Hp & Hr & Hpr); [lra|];
      fold p in Hp, Hpr; fold r in Hr, Hpr;
      pose proof (Hsq _ p r Hp Hr Hpr ltac:(lra)) as Hs; pose proof (Hpu p r Hpr) as Hpu';
      apply outer_reconstruct; cbn [qs qx qy qz];
      first [ lra | rewrite Hpu'; lra | rewrite (Rmult_comm _ p), Hpu'; lra | apply Hs; lra ].
  - apply G; [lra|]; intros p r; destruct (half_r (m00 M + m11 M + m22 M + 1)) as (Hp & Hr & Hpr); [lra|];
      fold p in Hp, Hpr; fold r in Hr, Hpr;
      pose proof (Hsq _ p r Hp Hr Hpr ltac:(lra)) as Hs; pose proof (Hpu p r Hpr) as Hpu';
      apply outer_reconstruct; cbn [qs qx qy qz];
      first [ lra | rewrite Hpu'; lra | rewrite (Rmult_comm _ p), Hpu'; lra | apply Hs; lra ].
Qed.

Lemma umat_inj a b : is_unit a -> is_unit b -> umat a = umat b -> a = b \/ a = qopp b.
Proof.
  intros Ha Hb E.
  assert (Hd : qdot a b * qdot a b = 1).
  { unfold umat in E. injection E as E0 E1 E2 E3 E4 E5 E6 E7 E8.
    unfold is_unit, qdot in *. 
    destruct a as [s x y z], b as [t u v w]; cbn in *.
    assert (P0 : s*s = t*t) by lra. assert (P1 : x*x = u*u) by lra.
    assert (P2 : y*y = v*v) by lra. assert (P3 : z*z = w*w) by lra.
    assert (P4 : s*x = t*u) by lra. assert (P5 : s*y = t*v) by lra. assert (P6 : s*z = t*w) by lra.
    assert (P7 : x*y = u*v) by lra. assert (P8 : x*z = u*w) by lra. assert (P9 : y*z = v*w) by lra.
    replace ((s*t+x*u+y*v+z*w)*(s*t+x*u+y*v+z*w)) with
      ((s*s)*(t*t)+(x*x)*(u*u)+(y*y)*(v*v)+(z*z)*(w*w)
       +2*((s*x)*(t*u)+(s*y)*(t*v)+(s*z)*(t*w)+(x*y)*(u*v)+(x*z)*(u*w)+(y*z)*(v*w))) by ring.
    rewrite P4, P5, P6, P7, P8, P9, P0, P1, P2, P3.
    replace (_ + _) with ((t*t+u*u+v*v+w*w)*(t*t+u*u+v*v+w*w)) by ring. rewrite Hb; ring. }
  assert (Hc : qdot a b = 1 \/ qdot a b = -1).
  { assert ((qdot a b - 1) * (qdot a b + 1) = 0) by lra. apply Rmult_integral in H. lra. }
  assert (K : forall c, is_unit c -> qdot a c = 1 -> a = c).
  { intros c Hcu Hac.
    assert (Z : qsub a c = qzero).
    { apply qdot_self_zero. unfold is_unit in *.
      replace (qdot (qsub a c) (qsub a c)) with (qdot a a + qdot c c - 2 * qdot a c) by vring. lra. }
    destruct a, c; unfold qsub, qzero in Z; cbn in Z; injection Z; intros; apply quat_eq; cbn; lra. }
  destruct Hc as [Hc|Hc]; [left|right]; apply K; auto.
  - unfold is_unit in *. rewrite <- Hb. vring.
  - replace (qdot a (qopp b)) with (- qdot a b) by vring. lra.
Qed.

Lemma from_to_matrix q : is_unit q -> exists q', q_from_matrix (q_to_matrix q) = Some q' /\ (q' = q \/ q' = qopp q).
Proof.
  intros Hq. destruct (q_to_matrix_rotation q) as [HR _].
  destruct (from_matrix_correct _ HR) as (q' & E & Hu & Hm).
  exists q'; split; auto. apply umat_inj; auto. rewrite Hm. apply to_matrix_unit; auto.
Qed.

(** ** arrays *)
Lemma q_rotate_array_map q rs : q_rotate_array q rs = map (q_rotate q) rs.
Proof.
  unfold q_rotate_array, q_prod_array_l, q_prod_array_r. rewrite !map_map.
  apply map_ext. intros [x y z]. destruct q. unfold q_rotate. qunf. f_equal; ring.
Qed.
