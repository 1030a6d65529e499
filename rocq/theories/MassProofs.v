(** Proofs about mass.py *)
From Verif Require Import Base QuatModel VecModel VecProofs BvhModel GridModel VolModel RigidTypes CollModel MassModel MassSpec SurfSpec ReadySpec ReadyProofs.
From Coq Require Import Permutation.
Open Scope R_scope.

(** means over a triangle of the monomials of one or two coordinates *)
Definition mean1 (x0 x1 x2 : R) := (x0 + x1 + x2) / 3.
Definition mean2 (x0 x1 x2 y0 y1 y2 : R) := ((x0 + x1 + x2) * (y0 + y1 + y2) + x0 * y0 + x1 * y1 + x2 * y2) / 12.
Definition mean3 (x0 x1 x2 y0 y1 y2 z0 z1 z2 : R) :=
  ((x0+x1+x2)*(y0+y1+y2)*(z0+z1+z2) + (x0+x1+x2)*(y0*z0+y1*z1+y2*z2) + (y0+y1+y2)*(x0*z0+x1*z1+x2*z2) + (z0+z1+z2)*(x0*y0+x1*y1+x2*y2)
   + 2 * (x0*y0*z0 + x1*y1*z1 + x2*y2*z2)) / 60.
Lemma face_integrals p0 p1 p2 X Y : 
  let a0 := comp p0 X in let a1 := comp p1 X in let a2 := comp p2 X in
  let b0 := comp p0 Y in let b1 := comp p1 Y in let b2 := comp p2 Y in
  let D := (a1 - a0) * (b2 - b0) - (a2 - a0) * (b1 - b0) in
  let f := projected_face_integral (p0, p1, p2) X Y in
  P1 f = D / 2 /\ Pa f = D / 2 * mean1 a0 a1 a2 /\ Paa f = D / 2 * mean2 a0 a1 a2 a0 a1 a2 /\ Paaa f = D / 2 * mean3 a0 a1 a2 a0 a1 a2 a0 a1 a2 /\
  Pb f = D / 2 * mean1 b0 b1 b2 /\ Pbb f = D / 2 * mean2 b0 b1 b2 b0 b1 b2 /\ Pbbb f = D / 2 * mean3 b0 b1 b2 b0 b1 b2 b0 b1 b2 /\
  Pab f = D / 2 * mean2 a0 a1 a2 b0 b1 b2 /\ Paab f = D / 2 * mean3 a0 a1 a2 a0 a1 a2 b0 b1 b2 /\ Pabb f = D / 2 * mean3 a0 a1 a2 b0 b1 b2 b0 b1 b2.
Proof.
  cbv zeta. unfold projected_face_integral. cbn [fold_left face_edge P1 Pa Paa Paaa Pb Pbb Pbbb Pab Paab Pabb].
  generalize (comp p0 X), (comp p1 X), (comp p2 X), (comp p0 Y), (comp p1 Y), (comp p2 Y). intros a0 a1 a2 b0 b1 b2. unfold mean1, mean2, mean3.
  do 9 (split; [field|]). field.
Qed.
(** the face integrals: twice the area times half the mean *)
Lemma F_forms a0 a1 a2 b0 b1 b2 c0 c1 c2 nA nB nC w L D : nC <> 0 -> D = L * nC ->
  nA * a0 + nB * b0 + w = - nC * c0 -> nA * a1 + nB * b1 + w = - nC * c1 -> nA * a2 + nB * b2 + w = - nC * c2 ->
  let k1 := 1 / nC in let k2 := k1 * k1 in let k3 := k2 * k1 in let k4 := k3 * k1 in
  let P1 := D / 2 in let Pa := D / 2 * mean1 a0 a1 a2 in let Paa := D / 2 * mean2 a0 a1 a2 a0 a1 a2 in let Paaa := D / 2 * mean3 a0 a1 a2 a0 a1 a2 a0 a1 a2 in
  let Pb := D / 2 * mean1 b0 b1 b2 in let Pbb := D / 2 * mean2 b0 b1 b2 b0 b1 b2 in let Pbbb := D / 2 * mean3 b0 b1 b2 b0 b1 b2 b0 b1 b2 in
  let Pab := D / 2 * mean2 a0 a1 a2 b0 b1 b2 in let Paab := D / 2 * mean3 a0 a1 a2 a0 a1 a2 b0 b1 b2 in let Pabb := D / 2 * mean3 a0 a1 a2 b0 b1 b2 b0 b1 b2 in
  k1 * Pa = L / 2 * mean1 a0 a1 a2 /\ k1 * Pb = L / 2 * mean1 b0 b1 b2 /\
  - k2 * (nA * Pa + nB * Pb + w * P1) = L / 2 * mean1 c0 c1 c2 /\
  k1 * Paa = L / 2 * mean2 a0 a1 a2 a0 a1 a2 /\ k1 * Pbb = L / 2 * mean2 b0 b1 b2 b0 b1 b2 /\
  k3 * (nA * nA * Paa + 2 * nA * nB * Pab + nB * nB * Pbb + w * (2 * (nA * Pa + nB * Pb) + w * P1)) = L / 2 * mean2 c0 c1 c2 c0 c1 c2 /\
  k1 * Paaa = L / 2 * mean3 a0 a1 a2 a0 a1 a2 a0 a1 a2 /\ k1 * Pbbb = L / 2 * mean3 b0 b1 b2 b0 b1 b2 b0 b1 b2 /\
  - k4 * (nA * nA * nA * Paaa + 3 * nA * nA * nB * Paab + 3 * nA * nB * nB * Pabb + nB * nB * nB * Pbbb
                      + 3 * w * (nA * nA * Paa + 2 * nA * nB * Pab + nB * nB * Pbb)
                      + w * w * (3 * (nA * Pa + nB * Pb) + w * P1)) = L / 2 * mean3 c0 c1 c2 c0 c1 c2 c0 c1 c2 /\
  k1 * Paab = L / 2 * mean3 a0 a1 a2 a0 a1 a2 b0 b1 b2 /\
  - k2 * (nA * Pabb + nB * Pbbb + w * Pbb) = L / 2 * mean3 b0 b1 b2 b0 b1 b2 c0 c1 c2 /\
  k3 * (nA * nA * Paaa + 2 * nA * nB * Paab + nB * nB * Pabb + w * (2 * (nA * Paa + nB * Pab) + w * Pa)) = L / 2 * mean3 c0 c1 c2 c0 c1 c2 a0 a1 a2.
Proof.
  intros Hn HD H0 H1 H2. cbv zeta. subst D.
  set (l0 := nA * a0 + nB * b0 + w) in *. set (l1 := nA * a1 + nB * b1 + w) in *. set (l2 := nA * a2 + nB * b2 + w) in *.
  assert (E1 : nA * mean1 a0 a1 a2 + nB * mean1 b0 b1 b2 + w = mean1 l0 l1 l2) by (unfold mean1, l0, l1, l2; field).
  assert (E2 : nA * nA * mean2 a0 a1 a2 a0 a1 a2 + 2 * nA * nB * mean2 a0 a1 a2 b0 b1 b2 + nB * nB * mean2 b0 b1 b2 b0 b1 b2 + w * (2 * (nA * mean1 a0 a1 a2 + nB * mean1 b0 b1 b2) + w) = mean2 l0 l1 l2 l0 l1 l2)
    by (unfold mean1, mean2, l0, l1, l2; field).
  assert (E3 : nA * nA * nA * mean3 a0 a1 a2 a0 a1 a2 a0 a1 a2 + 3 * nA * nA * nB * mean3 a0 a1 a2 a0 a1 a2 b0 b1 b2 + 3 * nA * nB * nB * mean3 a0 a1 a2 b0 b1 b2 b0 b1 b2
     + nB * nB * nB * mean3 b0 b1 b2 b0 b1 b2 b0 b1 b2 + 3 * w * (nA * nA * mean2 a0 a1 a2 a0 a1 a2 + 2 * nA * nB * mean2 a0 a1 a2 b0 b1 b2 + nB * nB * mean2 b0 b1 b2 b0 b1 b2)
     + w * w * (3 * (nA * mean1 a0 a1 a2 + nB * mean1 b0 b1 b2) + w) = mean3 l0 l1 l2 l0 l1 l2 l0 l1 l2) by (unfold mean1, mean2, mean3, l0, l1, l2; field).
  assert (E4 : nA * mean3 a0 a1 a2 b0 b1 b2 b0 b1 b2 + nB * mean3 b0 b1 b2 b0 b1 b2 b0 b1 b2 + w * mean2 b0 b1 b2 b0 b1 b2 = mean3 b0 b1 b2 b0 b1 b2 l0 l1 l2) by (unfold mean2, mean3, l0, l1, l2; field).
  assert (E5 : nA * nA * mean3 a0 a1 a2 a0 a1 a2 a0 a1 a2 + 2 * nA * nB * mean3 a0 a1 a2 a0 a1 a2 b0 b1 b2 + nB * nB * mean3 a0 a1 a2 b0 b1 b2 b0 b1 b2 + w * (2 * (nA * mean2 a0 a1 a2 a0 a1 a2 + nB * mean2 a0 a1 a2 b0 b1 b2) + w * mean1 a0 a1 a2) = mean3 l0 l1 l2 l0 l1 l2 a0 a1 a2)
    by (unfold mean1, mean2, mean3, l0, l1, l2; field).
  rewrite H0, H1, H2 in E1, E2, E3, E4, E5. clearbody l0 l1 l2. clear H0 H1 H2.
  split; [field; auto|]. split; [field; auto|].
  split. { transitivity (- (1 / nC * (1 / nC)) * (L * nC / 2) * (nA * mean1 a0 a1 a2 + nB * mean1 b0 b1 b2 + w)); [field; auto|]. rewrite E1. unfold mean1. field; auto. }
  split; [field; auto|]. split; [field; auto|].
  split. { etransitivity; [|transitivity (1 / nC * (1 / nC) * (1 / nC) * (L * nC / 2) * mean2 (- nC * c0) (- nC * c1) (- nC * c2) (- nC * c0) (- nC * c1) (- nC * c2)); [rewrite <- E2; reflexivity|unfold mean2; field; auto]]. field; auto. }
  split; [field; auto|]. split; [field; auto|].
  split. { etransitivity; [|transitivity (- (1 / nC * (1 / nC) * (1 / nC) * (1 / nC)) * (L * nC / 2) * mean3 (- nC * c0) (- nC * c1) (- nC * c2) (- nC * c0) (- nC * c1) (- nC * c2) (- nC * c0) (- nC * c1) (- nC * c2)); [rewrite <- E3; reflexivity|unfold mean3; field; auto]]. field; auto. }
  split; [field; auto|].
  split. { etransitivity; [|transitivity (- (1 / nC * (1 / nC)) * (L * nC / 2) * mean3 b0 b1 b2 b0 b1 b2 (- nC * c0) (- nC * c1) (- nC * c2)); [rewrite <- E4; reflexivity|unfold mean3; field; auto]]. field; auto. }
  etransitivity; [|transitivity (1 / nC * (1 / nC) * (1 / nC) * (L * nC / 2) * mean3 (- nC * c0) (- nC * c1) (- nC * c2) (- nC * c0) (- nC * c1) (- nC * c2) a0 a1 a2); [rewrite <- E5; reflexivity|unfold mean3; field; auto]]. field; auto.
Qed.
(** the contribution of a triangle to the i-th entries: its area vector times half the mean over the triangle *)
Definition area2 (p0 p1 p2 : vec3) : vec3 := vcross (vsub p1 p0) (vsub p2 p0).
Definition s_0 (p0 p1 p2 : vec3) : R := vx (area2 p0 p1 p2) / 2 * mean1 (vx p0) (vx p1) (vx p2).
Definition s_1 (i : nat) (p0 p1 p2 : vec3) : R :=
  comp (area2 p0 p1 p2) i / 2 * mean2 (comp p0 i) (comp p1 i) (comp p2 i) (comp p0 i) (comp p1 i) (comp p2 i).
Definition s_2 (i : nat) (p0 p1 p2 : vec3) : R :=
  comp (area2 p0 p1 p2) i / 2 * mean3 (comp p0 i) (comp p1 i) (comp p2 i) (comp p0 i) (comp p1 i) (comp p2 i) (comp p0 i) (comp p1 i) (comp p2 i).
Definition s_p (i : nat) (p0 p1 p2 : vec3) : R := let j := ((i + 1) mod 3)%nat in
  comp (area2 p0 p1 p2) i / 2 * mean3 (comp p0 i) (comp p1 i) (comp p2 i) (comp p0 i) (comp p1 i) (comp p2 i) (comp p0 j) (comp p1 j) (comp p2 j).
Definition vec_of (f : nat -> R) : vec3 := mkV (f 0%nat) (f 1%nat) (f 2%nat).
Definition add_mom (M : moments) (p0 p1 p2 : vec3) : moments :=
  mkMom (T0 M + s_0 p0 p1 p2) (vadd (T1 M) (vec_of (fun i => s_1 i p0 p1 p2))) (vadd (T2 M) (vec_of (fun i => s_2 i p0 p1 p2)))
        (vadd (TP M) (vec_of (fun i => s_p i p0 p1 p2))).
Lemma max_abs_nonzero n : n <> vzero -> comp n (v3_max_abs_component n) <> 0 /\ (v3_max_abs_component n < 3)%nat.
Proof.
  intros Hn. unfold v3_max_abs_component. assert (A0 := Rabs_pos (vx n)). assert (A1 := Rabs_pos (vy n)). assert (A2 := Rabs_pos (vz n)).
  assert (Z : forall x, x <> 0 -> 0 < Rabs x) by (intros; apply Rabs_pos_lt; auto).
  assert (Q : vx n <> 0 \/ vy n <> 0 \/ vz n <> 0). { destruct (Req_dec (vx n) 0), (Req_dec (vy n) 0), (Req_dec (vz n) 0); auto. exfalso. apply Hn. destruct n; cbn in *; subst; reflexivity. }
  assert (W : forall x y, Rabs y < Rabs x -> x <> 0) by (intros x y H E; subst x; rewrite Rabs_R0 in H; assert (P := Rabs_pos y); lra).
  destruct (Rltb_spec (Rabs (vy n)) (Rabs (vx n))), (Rltb_spec (Rabs (vz n)) (Rabs (vx n))); cbn [andb]; [split; [cbn; eapply W; eauto|lia]| | |];
    (destruct (Rltb_spec (Rabs (vz n)) (Rabs (vy n))); [split; [cbn; eapply W; eauto|lia]|split; [cbn|lia]]; intros E; rewrite E, Rabs_R0 in *;
      destruct Q as [Q|[Q|Q]]; apply Z in Q; try lra; rewrite ?E, ?Rabs_R0 in Q; lra).
Qed.
Lemma comp_div d L i : comp (vdiv d L) i = comp d i / L.
Proof. destruct i as [|[|i]]; reflexivity. Qed.
Lemma mass_step_spec M p0 p1 p2 : area2 p0 p1 p2 <> vzero -> mass_step M (p0, p1, p2) = Some (add_mom M p0 p1 p2).
Proof.
  intros Hd. unfold mass_step. fold (area2 p0 p1 p2). set (d := area2 p0 p1 p2) in *. assert (HL := vnorm_pos d Hd).
  destruct (Reqb_spec (vnorm d) 0) as [E|_]; [lra|]. f_equal. set (L := vnorm d) in *. cbv zeta. set (n := v3_unit d).
  assert (Hn : n <> vzero). { intros E. apply Hd. unfold n, v3_unit in E. fold L in E. destruct d as [x y z]. unfold vdiv in E; cbn in E. injection E; intros E3 E2 E1.
    assert (Q : forall t, t / L = 0 -> t = 0). { intros t Ht. replace t with (t / L * L) by (field; lra). rewrite Ht. ring. } rewrite (Q _ E1), (Q _ E2), (Q _ E3). reflexivity. }
  destruct (max_abs_nonzero n Hn) as [HZ HZ3]. set (Z := v3_max_abs_component n) in *.
  set (X := Nat.modulo (Z + 1) 3). set (Y := Nat.modulo (X + 1) 3).
  assert (Hnd : forall i, comp n i = comp d i / L) by (intros i; unfold n, v3_unit; apply comp_div).
  set (w := - vdot n _).
  assert (HD : (comp p1 X - comp p0 X) * (comp p2 Y - comp p0 Y) - (comp p2 X - comp p0 X) * (comp p1 Y - comp p0 Y) = comp d Z).
  { unfold d, area2, vcross, vsub, X, Y. destruct Z as [|[|[|z]]]; [| | |lia]; cbn; ring. }
  assert (HW : forall p, p = p0 \/ p = p1 \/ p = p2 -> comp n X * comp p X + comp n Y * comp p Y + w = - comp n Z * comp p Z).
  { intros p Hp. assert (S : vdot n p + w = 0).
    { unfold w. assert (Q : vdot d p = vdot d (vdiv (vadd (vadd p0 p1) p2) 3)).
      { unfold d, area2, vdot, vdiv, vadd, vcross, vsub. destruct Hp as [-> | [-> | ->]]; cbn; field. }
      replace (vdot n p) with (vdot d p / L). replace (vdot n (vdiv (vadd (vadd p0 p1) p2) 3)) with (vdot d (vdiv (vadd (vadd p0 p1) p2) 3) / L). rewrite Q; ring.
      all: unfold n, v3_unit, vdot, vdiv; fold L; cbn; field; lra. }
    unfold vdot in S. unfold X, Y. destruct Z as [|[|[|z]]]; [| | |lia]; cbn; cbn in S; lra. }
  assert (F := F_forms (comp p0 X) (comp p1 X) (comp p2 X) (comp p0 Y) (comp p1 Y) (comp p2 Y) (comp p0 Z) (comp p1 Z) (comp p2 Z)
     (comp n X) (comp n Y) (comp n Z) w L (comp d Z) HZ ltac:(rewrite Hnd; field; lra) (HW p0 ltac:(auto)) (HW p1 ltac:(auto)) (HW p2 ltac:(auto))).
  destruct (face_integrals p0 p1 p2 X Y) as (G1 & Ga & Gaa & Gaaa & Gb & Gbb & Gbbb & Gab & Gaab & Gabb). cbv zeta in *. rewrite HD in *.
  set (f := projected_face_integral (p0, p1, p2) X Y) in *. rewrite <- Ga, <- Gaa, <- Gaaa, <- Gb, <- Gbb, <- Gbbb, <- Gab, <- Gaab, <- Gabb, <- G1 in F.
  destruct F as (F1 & F2 & F3 & F4 & F5 & F6 & F7 & F8 & F9 & F10 & F11 & F12).
  rewrite F1, F2, F3, F4, F5, F6, F7, F8, F9, F10, F11, F12. rewrite !Hnd. change (vx n) with (comp n 0). rewrite Hnd.
  clear - HL HZ3. unfold add_mom. subst X Y. destruct M as [t0 [u0 u1 u2] [v0 v1 v2] [w0 w1 w2]].
  unfold s_0, s_1, s_2, s_p, vec_of, vadd. fold d. destruct Z as [|[|[|z]]]; [| | |lia]; cbn -[mean1 mean2 mean3 vnorm area2]; f_equal; try (f_equal; field; lra); field; lra.
Qed.
(** ** closed meshes: sums of antisymmetric edge terms vanish *)
Definition edge_sum (h : vec3 -> vec3 -> R) (V : list vec3) (es : list (Z * Z)) : R :=
  fold_right (fun e s => h (vat V (fst e)) (vat V (snd e)) + s) 0 es.
Lemma edge_sum_app h V l l' : edge_sum h V (l ++ l') = edge_sum h V l + edge_sum h V l'.
Proof. unfold edge_sum. induction l as [|x l IH]; cbn; [ring|rewrite IH; ring]. Qed.
Lemma edge_sum_perm h V l l' : Permutation l l' -> edge_sum h V l = edge_sum h V l'.
Proof. intros H. unfold edge_sum. induction H; cbn; auto; try lra. Qed.
Lemma closed_edge_sum h V T : (forall p q, h p q = - h q p) -> closed_mesh T -> edge_sum h V (directed_edges T) = 0.
Proof.
  intros Ha (HN & HS & _). set (es := directed_edges T) in *.
  assert (HP : Permutation es (map (fun e => (snd e, fst e)) es)).
  { apply NoDup_Permutation; auto.
    - apply FinFun.Injective_map_NoDup; auto. intros [a b] [c d]; cbn; congruence.
    - intros [a b]. rewrite in_map_iff. split.
      + intros H. exists (b, a). split; auto.
      + intros ([c d] & E & H). cbn in E. injection E; intros <- <-. auto. }
  assert (E : edge_sum h V es = edge_sum h V (map (fun e => (snd e, fst e)) es)) by (apply edge_sum_perm; auto).
  assert (E2 : forall l, edge_sum h V (map (fun e => (snd e, fst e)) l) = - edge_sum h V l).
  { induction l as [|[a b] l IH]; cbn; [ring|]. unfold edge_sum in IH. rewrite IH, (Ha (vat V b)). ring. }
  rewrite E2 in E. lra.
Qed.
Lemma closed_sum f g h V T : (forall p0 p1 p2, f p0 p1 p2 = g p0 p1 p2 + (h p0 p1 + h p1 p2 + h p2 p0)) -> (forall p q, h p q = - h q p) ->
  closed_mesh T -> mesh_sum f V T = mesh_sum g V T.
Proof.
  intros HF Ha HC. assert (E : mesh_sum f V T = mesh_sum g V T + edge_sum h V (directed_edges T)).
  { clear HC. unfold directed_edges. induction T as [|[[i j] k] T IH]; cbn [mesh_sum fold_right flat_map]; [cbn; ring|].
    rewrite edge_sum_app. unfold mesh_sum in IH. rewrite IH, HF. cbn. ring. }
  rewrite E, (closed_edge_sum h V T Ha HC). ring.
Qed.
(** the edge terms of direction i, with j, k the other two in cyclic order *)
Definition cr (i : nat) (p q : vec3) : R := let j := ((i + 1) mod 3)%nat in let k := ((i + 2) mod 3)%nat in comp p j * comp q k - comp p k * comp q j.
Lemma closed_0 V T : closed_mesh T -> mesh_sum s_0 V T = mesh_sum tet_volume V T.
Proof.
  apply closed_sum with (h := fun p q => cr 0 p q * (vx p + vx q) / 6).
  - intros [x0 y0 z0] [x1 y1 z1] [x2 y2 z2]. unfold s_0, tet_volume, tet_det, area2, mean1, cr, vdot, vcross, vsub; cbn. field.
  - intros [] []. unfold cr; cbn. field.
Qed.
Lemma closed_1 i V T : (i < 3)%nat -> closed_mesh T -> mesh_sum (fun a b c => s_1 i a b c / 2) V T = mesh_sum (tet_first i) V T.
Proof.
  intros Hi. apply closed_sum with (h := fun p q => cr i p q * (comp p i * comp p i + comp p i * comp q i + comp q i * comp q i) / 24).
  - intros [x0 y0 z0] [x1 y1 z1] [x2 y2 z2]. unfold s_1, tet_first, tet_det, area2, mean2, cr, vdot, vcross, vsub. destruct i as [|[|[|i]]]; [| | |lia]; cbn; field.
  - intros [] []. unfold cr. destruct i as [|[|[|i]]]; [| | |lia]; cbn; field.
Qed.
Lemma closed_2 i V T : (i < 3)%nat -> closed_mesh T -> mesh_sum (fun a b c => s_2 i a b c / 3) V T = mesh_sum (tet_second i i) V T.
Proof.
  intros Hi. apply closed_sum with (h := fun p q => cr i p q * (comp p i * comp p i * comp p i + comp p i * comp p i * comp q i + comp p i * comp q i * comp q i + comp q i * comp q i * comp q i) / 60).
  - intros [x0 y0 z0] [x1 y1 z1] [x2 y2 z2]. unfold s_2, tet_second, tet_det, area2, mean3, cr, vdot, vcross, vsub. destruct i as [|[|[|i]]]; [| | |lia]; cbn; field.
  - intros [] []. unfold cr. destruct i as [|[|[|i]]]; [| | |lia]; cbn; field.
Qed.
Lemma closed_p i V T : (i < 3)%nat -> closed_mesh T -> mesh_sum (fun a b c => s_p i a b c / 2) V T = mesh_sum (tet_second i ((i + 1) mod 3)) V T.
Proof.
  intros Hi. set (j := ((i + 1) mod 3)%nat).
  apply closed_sum with (h := fun p q => cr i p q / 10 * (3 * comp p i * comp p i * comp p j + comp p i * comp p i * comp q j + 2 * comp p i * comp q i * comp p j
     + 2 * comp p i * comp q i * comp q j + comp q i * comp q i * comp p j + 3 * comp q i * comp q i * comp q j) / 12).
  - intros [x0 y0 z0] [x1 y1 z1] [x2 y2 z2]. unfold s_p, tet_second, tet_det, area2, mean3, cr, vdot, vcross, vsub, j. destruct i as [|[|[|i]]]; [| | |lia]; cbn; field.
  - intros [] []. unfold cr, j. destruct i as [|[|[|i]]]; [| | |lia]; cbn; field.
Qed.

(** ** moving the mesh *)
Lemma py_get_map_vat f V i : py_get V i <> None -> vat (map f V) i = f (vat V i).
Proof. unfold vat. rewrite py_get_map. destruct (py_get V i); cbn; congruence. Qed.
Lemma mesh_sum_map F f V T : indices_exist V T -> mesh_sum F (map f V) T = mesh_sum (fun a b c => F (f a) (f b) (f c)) V T.
Proof.
  unfold mesh_sum. induction T as [|[[i j] k] T IH]; intros HI; cbn; auto. destruct (HI i j k (or_introl eq_refl)) as (Hi & Hj & Hk).
  rewrite !py_get_map_vat by auto. f_equal. apply IH. intros a b c H. apply HI. right; auto.
Qed.
Lemma mesh_sum_ext F G V T : (forall a b c, F a b c = G a b c) -> mesh_sum F V T = mesh_sum G V T.
Proof. intros H. unfold mesh_sum. induction T as [|[[i j] k] T IH]; cbn; auto. rewrite H, IH. reflexivity. Qed.
Lemma mesh_sum_plus F G V T : mesh_sum (fun a b c => F a b c + G a b c) V T = mesh_sum F V T + mesh_sum G V T.
Proof. unfold mesh_sum. induction T as [|[[i j] k] T IH]; cbn; [ring|]. rewrite IH. ring. Qed.
Lemma mesh_sum_scale F s V T : mesh_sum (fun a b c => s * F a b c) V T = s * mesh_sum F V T.
Proof. unfold mesh_sum. induction T as [|[[i j] k] T IH]; cbn; [ring|]. rewrite IH. ring. Qed.
Definition tri3 (t p q : vec3) : R := vdot t (vcross p q).
Lemma shift_volume t V T : indices_exist V T -> closed_mesh T -> volume (map (vadd t) V) T = volume V T.
Proof.
  intros HI HC. unfold volume. rewrite mesh_sum_map by auto. revert HC. apply closed_sum with (h := fun p q => tri3 t p q / 6).
  - intros [x0 y0 z0] [x1 y1 z1] [x2 y2 z2]. destruct t. unfold tet_volume, tet_det, tri3, vdot, vcross, vadd; cbn. field.
  - intros [] []. destruct t. unfold tri3, vdot, vcross; cbn. field.
Qed.
Lemma comp_add i u v : comp (vadd u v) i = comp u i + comp v i.
Proof. destruct i as [|[|i]]; reflexivity. Qed.
Lemma shift_first t i V T : (i < 3)%nat -> indices_exist V T -> closed_mesh T -> first_moment (map (vadd t) V) T i = first_moment V T i + comp t i * volume V T.
Proof.
  intros Hi HI HC. unfold first_moment, volume. rewrite mesh_sum_map by auto. rewrite <- mesh_sum_scale, <- mesh_sum_plus.
  revert HC. apply closed_sum with (h := fun p q => tri3 t p q * (comp p i + comp q i) / 24 + comp t i * tri3 t p q / 8).
  - intros [x0 y0 z0] [x1 y1 z1] [x2 y2 z2]. destruct t. unfold tet_first, tet_volume, tet_det, tri3, vdot, vcross, vadd. destruct i as [|[|[|i]]]; [| | |lia]; cbn; field.
  - intros [] []. destruct t. unfold tri3, vdot, vcross. destruct i as [|[|[|i]]]; [| | |lia]; cbn; field.
Qed.
Lemma shift_second t i j V T : (i < 3)%nat -> (j < 3)%nat -> indices_exist V T -> closed_mesh T ->
  second_moment (map (vadd t) V) T i j = second_moment V T i j + (comp t i * first_moment V T j + (comp t j * first_moment V T i + comp t i * comp t j * volume V T)).
Proof.
  intros Hi Hj HI HC. unfold second_moment, first_moment, volume. rewrite mesh_sum_map by auto. rewrite <- !mesh_sum_scale, <- !mesh_sum_plus.
  revert HC. apply closed_sum with (h := fun p q => tri3 t p q / 120 * ((comp p i + comp q i) * (comp p j + comp q j) + comp p i * comp p j + comp q i * comp q j)
     + (comp t j * (comp p i + comp q i) + comp t i * (comp p j + comp q j)) * tri3 t p q / 30 + comp t i * comp t j * tri3 t p q / 10).
  - intros [x0 y0 z0] [x1 y1 z1] [x2 y2 z2]. destruct t. unfold tet_second, tet_first, tet_volume, tet_det, tri3, vdot, vcross, vadd.
    destruct i as [|[|[|i]]]; [| | |lia]; destruct j as [|[|[|j]]]; try lia; cbn; field.
  - intros [] []. destruct t. unfold tri3, vdot, vcross. destruct i as [|[|[|i]]]; [| | |lia]; destruct j as [|[|[|j]]]; try lia; cbn; field.
Qed.
