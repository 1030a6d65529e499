(** The moments of a tetrahedron as iterated integrals: C61_tetrahedron. *)
From Verif Require Import Base VecModel BvhModel GridModel VolModel RigidTypes MassModel MassSpec.
From Coquelicot Require Import Coquelicot.
Open Scope R_scope.

Lemma RInt_poly4 c0 c1 c2 c3 c4 t : RInt (fun x => c0 + c1 * x + c2 * (x * x) + c3 * (x * x * x) + c4 * (x * x * x * x)) 0 t =
  c0 * t + c1 * (t * t) / 2 + c2 * (t * t * t) / 3 + c3 * (t * t * t * t) / 4 + c4 * (t * t * t * t * t) / 5.
Proof.
  apply is_RInt_unique. set (G := fun x => c0 * x + c1 * (x * x) / 2 + c2 * (x * x * x) / 3 + c3 * (x * x * x * x) / 4 + c4 * (x * x * x * x * x) / 5).
  replace (c0 * t + c1 * (t * t) / 2 + c2 * (t * t * t) / 3 + c3 * (t * t * t * t) / 4 + c4 * (t * t * t * t * t) / 5) with (minus (G t) (G 0)) by (unfold minus, plus, opp; cbn; unfold G; field).
  apply (is_RInt_derive G).
  - intros x _. unfold G. auto_derive; auto. field.
  - intros x _. apply (ex_derive_continuous (fun x => c0 + c1 * x + c2 * (x * x) + c3 * (x * x * x) + c4 * (x * x * x * x))). auto_derive; auto.
Qed.
(** f integrated over u, v, w >= 0 with u + v + w <= 1 *)
Definition simplex_integral (f : R -> R -> R -> R) : R :=
  RInt (fun u => RInt (fun v => RInt (fun w => f u v w) 0 (1 - u - v)) 0 (1 - u)) 0 1.
Lemma simplex_one : simplex_integral (fun u v w => 1) = ((1/6)).
Proof.
  unfold simplex_integral.
  assert (W : forall u v, RInt (fun w => 1) 0 (1 - u - v) = ((1) + (-1)*u) + ((-1)) * v + 0 * (v * v) + 0 * (v * v * v) + 0 * (v * v * v * v)).
  { intros u v. etransitivity; [apply RInt_ext with (g := fun w => ((1)) + 0 * w + 0 * (w * w) + 0 * (w * w * w) + 0 * (w * w * w * w)); intros; cbv beta; match goal with |- ?x = ?y => change (@eq R x y) end; ring|]. rewrite RInt_poly4. match goal with |- ?x = ?y => change (@eq R x y) end. field. }
  assert (H : forall u, RInt (fun v => RInt (fun w => 1) 0 (1 - u - v)) 0 (1 - u) = ((1/2)) + ((-1)) * u + ((1/2)) * (u * u) + 0 * (u * u * u) + 0 * (u * u * u * u)).
  { intros u. etransitivity; [apply RInt_ext; intros v _; apply W|]. rewrite RInt_poly4. match goal with |- ?x = ?y => change (@eq R x y) end. field. }
  etransitivity; [apply RInt_ext; intros u _; apply H|]. rewrite RInt_poly4. match goal with |- ?x = ?y => change (@eq R x y) end. field.
Qed.
Lemma simplex_lin a b c : simplex_integral (fun u v w => u * a + v * b + w * c) = ((1/24)*a + (1/24)*b + (1/24)*c).
Proof.
  unfold simplex_integral.
  assert (W : forall u v, RInt (fun w => u * a + v * b + w * c) 0 (1 - u - v) = ((1)*a*u + (-1)*a*u*u + (1/2)*c + (-1)*c*u + (1/2)*c*u*u) + ((-1)*a*u + (1)*b + (-1)*b*u + (-1)*c + (1)*c*u) * v + ((-1)*b + (1/2)*c) * (v * v) + 0 * (v * v * v) + 0 * (v * v * v * v)).
  { intros u v. etransitivity; [apply RInt_ext with (g := fun w => ((1)*a*u + (1)*b*v) + ((1)*c) * w + 0 * (w * w) + 0 * (w * w * w) + 0 * (w * w * w * w)); intros; cbv beta; match goal with |- ?x = ?y => change (@eq R x y) end; ring|]. rewrite RInt_poly4. match goal with |- ?x = ?y => change (@eq R x y) end. field. }
  assert (H : forall u, RInt (fun v => RInt (fun w => u * a + v * b + w * c) 0 (1 - u - v)) 0 (1 - u) = ((1/6)*b + (1/6)*c) + ((1/2)*a + (-1/2)*b + (-1/2)*c) * u + ((-1)*a + (1/2)*b + (1/2)*c) * (u * u) + ((1/2)*a + (-1/6)*b + (-1/6)*c) * (u * u * u) + 0 * (u * u * u * u)).
  { intros u. etransitivity; [apply RInt_ext; intros v _; apply W|]. rewrite RInt_poly4. match goal with |- ?x = ?y => change (@eq R x y) end. field. }
  etransitivity; [apply RInt_ext; intros u _; apply H|]. rewrite RInt_poly4. match goal with |- ?x = ?y => change (@eq R x y) end. field.
Qed.
Lemma simplex_quad a b c a2 b2 c2 : simplex_integral (fun u v w => (u * a + v * b + w * c) * (u * a2 + v * b2 + w * c2)) = ((1/60)*a*a2 + (1/60)*c*c2 + (1/120)*a*b2 + (1/120)*a2*b + (1/120)*b*c2 + (1/120)*b2*c + (1/60)*b*b2 + (1/120)*a*c2 + (1/120)*a2*c).
Proof.
  unfold simplex_integral.
  assert (W : forall u v, RInt (fun w => (u * a + v * b + w * c) * (u * a2 + v * b2 + w * c2)) 0 (1 - u - v) = ((1)*a*a2*u*u + (-1)*a*a2*u*u*u + (1/2)*a*c2*u + (-1)*a*c2*u*u + (1/2)*a*c2*u*u*u + (1/2)*a2*c*u + (-1)*a2*c*u*u + (1/2)*a2*c*u*u*u + (1/3)*c*c2 + (-1)*c*c2*u + (1)*c*c2*u*u + (-1/3)*c*c2*u*u*u) + ((-1)*a*a2*u*u + (1)*a*b2*u + (-1)*a*b2*u*u + (1)*a2*b*u + (-1)*a2*b*u*u + (-1)*a*c2*u + (1)*a*c2*u*u + (1/2)*b*c2 + (-1)*b*c2*u + (1/2)*b*c2*u*u + (-1)*a2*c*u + (1)*a2*c*u*u + (1/2)*b2*c + (-1)*b2*c*u + (1/2)*b2*c*u*u + (-1)*c*c2 + (2)*c*c2*u + (-1)*c*c2*u*u) * v + ((-1)*a*b2*u + (-1)*a2*b*u + (1)*b*b2 + (-1)*b*b2*u + (1/2)*a*c2*u + (-1)*b*c2 + (1)*b*c2*u + (1/2)*a2*c*u + (-1)*b2*c + (1)*b2*c*u + (1)*c*c2 + (-1)*c*c2*u) * (v * v) + ((-1)*b*b2 + (1/2)*b*c2 + (1/2)*b2*c + (-1/3)*c*c2) * (v * v * v) + 0 * (v * v * v * v)).
  { intros u v. etransitivity; [apply RInt_ext with (g := fun w => ((1)*a*a2*u*u + (1)*a*b2*u*v + (1)*a2*b*u*v + (1)*b*b2*v*v) + ((1)*a*c2*u + (1)*b*c2*v + (1)*a2*c*u + (1)*b2*c*v) * w + ((1)*c*c2) * (w * w) + 0 * (w * w * w) + 0 * (w * w * w * w)); intros; cbv beta; match goal with |- ?x = ?y => change (@eq R x y) end; ring|]. rewrite RInt_poly4. match goal with |- ?x = ?y => change (@eq R x y) end. field. }
  assert (H : forall u, RInt (fun v => RInt (fun w => (u * a + v * b + w * c) * (u * a2 + v * b2 + w * c2)) 0 (1 - u - v)) 0 (1 - u) = ((1/12)*c*c2 + (1/24)*b*c2 + (1/24)*b2*c + (1/12)*b*b2) + ((-1/3)*c*c2 + (1/6)*a*b2 + (1/6)*a2*b + (-1/6)*b*c2 + (-1/6)*b2*c + (-1/3)*b*b2 + (1/6)*a*c2 + (1/6)*a2*c) * u + ((1/2)*a*a2 + (1/2)*c*c2 + (-1/2)*a*b2 + (-1/2)*a2*b + (1/4)*b*c2 + (1/4)*b2*c + (1/2)*b*b2 + (-1/2)*a*c2 + (-1/2)*a2*c) * (u * u) + ((-1)*a*a2 + (-1/3)*c*c2 + (1/2)*a*b2 + (1/2)*a2*b + (-1/6)*b*c2 + (-1/6)*b2*c + (-1/3)*b*b2 + (1/2)*a*c2 + (1/2)*a2*c) * (u * u * u) + ((1/2)*a*a2 + (1/12)*c*c2 + (-1/6)*a*b2 + (-1/6)*a2*b + (1/24)*b*c2 + (1/24)*b2*c + (1/12)*b*b2 + (-1/6)*a*c2 + (-1/6)*a2*c) * (u * u * u * u)).
  { intros u. etransitivity; [apply RInt_ext; intros v _; apply W|]. rewrite RInt_poly4. match goal with |- ?x = ?y => change (@eq R x y) end. field. }
  etransitivity; [apply RInt_ext; intros u _; apply H|]. rewrite RInt_poly4. match goal with |- ?x = ?y => change (@eq R x y) end. field.
Qed.
(** the integral of f over the signed tetrahedron 0 a b c: the points u a + v b + w c, with volume element det du dv dw *)
Definition tet_integral (f : vec3 -> R) (a b c : vec3) : R :=
  tet_det a b c * simplex_integral (fun u v w => f (vadd (vadd (vscale u a) (vscale v b)) (vscale w c))).
Lemma comp_lin i u v w a b c : comp (vadd (vadd (vscale u a) (vscale v b)) (vscale w c)) i = u * comp a i + v * comp b i + w * comp c i.
Proof. destruct i as [|[|i]]; reflexivity. Qed.
Lemma simplex_ext f g : (forall u v w, f u v w = g u v w) -> simplex_integral f = simplex_integral g.
Proof. intros H. unfold simplex_integral. apply RInt_ext. intros u _. apply RInt_ext. intros v _. apply RInt_ext. intros w _. apply H. Qed.
Lemma tet_integrals a b c i j : tet_integral (fun _ => 1) a b c = tet_volume a b c /\
  tet_integral (fun p => comp p i) a b c = tet_first i a b c /\
  tet_integral (fun p => comp p i * comp p j) a b c = tet_second i j a b c.
Proof.
  unfold tet_integral, tet_volume, tet_first, tet_second. split; [|split].
  - rewrite simplex_one. field.
  - rewrite (simplex_ext _ (fun u v w => u * comp a i + v * comp b i + w * comp c i)) by (intros; apply comp_lin). rewrite simplex_lin. field.
  - rewrite (simplex_ext _ (fun u v w => (u * comp a i + v * comp b i + w * comp c i) * (u * comp a j + v * comp b j + w * comp c j))) by (intros; rewrite !comp_lin; reflexivity).
    rewrite simplex_quad. field.
Qed.
