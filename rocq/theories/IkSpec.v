(** Vocabulary of the inverse kinematics properties: histories, the bone tree, forward
    kinematics by rotation matrices, chains, partial derivatives. *)
From Verif Require Import Base BvhModel IkModel.
Open Scope R_scope.

(** ** skeletons a user can have: any sequence of calls, including calls that raised after
    having changed something *)
Inductive built : skeleton -> Prop :=
| built_new : built create_skeleton
| built_root s a b g x y z code s' : built s -> create_root s a b g x y z code = Some s' -> built s'
| built_bone s p a b g x y z code s' : built s -> add_bone s p a b g x y z code = Some s' -> built s'
| built_angle s i x s' : built s -> set_angle i x s = Some s' -> built s'
| built_angles s l : built s -> built (fst (set_joint_angles s l))
| built_update s s' : built s -> update_skeleton s = Some s' -> built s'
| built_fd_gradient s cs h g s' : built s -> fd_gradient cs s h = Some (g, s') -> built s'
| built_fd_hessian s cs h D s' : built s -> fd_hessian cs s h = Some (D, s') -> built s'.

(** ** the bone tree *)
Definition parent_is (s : skeleton) (p j : nat) : Prop := exists b, nth_error s j = Some b /\ bn_parent b = Z.of_nat p.
Record bone_tree (s : skeleton) : Prop := {
  bt_idx : forall k b, nth_error s k = Some b -> bn_idx b = k;
  bt_root : forall b, nth_error s 0 = Some b -> bn_parent b = (-1)%Z;
  bt_parent : forall k b, (0 < k)%nat -> nth_error s k = Some b -> exists p, bn_parent b = Z.of_nat p /\ (p < k)%nat;
  bt_children : forall k b j, nth_error s k = Some b -> (In j (bn_children b) <-> parent_is s k j);
  bt_nodup : forall k b, nth_error s k = Some b -> NoDup (bn_children b)
}.

(** the indices on the way from the root to bone [k], root first *)
Inductive path (s : skeleton) : nat -> list nat -> Prop :=
| path_root b : nth_error s 0 = Some b -> bn_parent b = (-1)%Z -> path s 0 [0%nat]
| path_bone p k b l : nth_error s k = Some b -> bn_parent b = Z.of_nat p -> path s p l -> path s k (l ++ [k]).
(** [c] is a serial chain from the root to some bone; goal and tool are arbitrary *)
Definition serial (s : skeleton) (c : chain) : Prop := exists k, path s k (ch_bones c).

(** ** forward kinematics *)
(** the right handed rotation by [x] about the coordinate axis named by a letter *)
Inductive turn (x : R) : nat -> mat3 -> Prop :=
| turn_x : turn x 88 (mkM 1 0 0  0 (cos x) (- sin x)  0 (sin x) (cos x))
| turn_y : turn x 89 (mkM (cos x) 0 (sin x)  0 1 0  (- sin x) 0 (cos x))
| turn_z : turn x 90 (mkM (cos x) (- sin x) 0  (sin x) (cos x) 0  0 0 1).
(** the rotation of the joint of [b]: R_1(alpha) R_2(beta) R_3(gamma) *)
Definition joint_turn (b : bone) (M : mat3) : Prop :=
  exists c1 c2 c3 A B C, bn_code b = [c1; c2; c3] /\ turn (bn_alpha b) c1 A /\ turn (bn_beta b) c2 B /\ turn (bn_gamma b) c3 C /\
  M = mmul A (mmul B C).
(** bone [k] has its origin at [T] and orientation [M]: composing parent to child *)
Inductive world_frame (s : skeleton) : nat -> vec3 -> mat3 -> Prop :=
| frame_root b M : nth_error s 0 = Some b -> bn_parent b = (-1)%Z -> joint_turn b M -> world_frame s 0 (bn_t b) M
| frame_bone p k b T P M : nth_error s k = Some b -> bn_parent b = Z.of_nat p -> world_frame s p T P -> joint_turn b M ->
    world_frame s k (vadd T (mvec P (bn_t b))) (mmul P M).

(** two skeletons that differ at most in the stored world poses *)
Definition strip (b : bone) := (bn_idx b, bn_code b, bn_alpha b, bn_beta b, bn_gamma b, bn_t b, bn_parent b, bn_children b).
Definition same_joints (s s' : skeleton) : Prop := map strip s = map strip s'.

(** ** functions of one joint angle *)
(** [F] is what [get] returns after setting angle [i] to [x] and updating the skeleton *)
Definition after_setting {A} (s : skeleton) (i : nat) (get : skeleton -> option A) (F : R -> A) : Prop :=
  forall x, exists s1 s2, set_angle (Z.of_nat i) x s = Some s1 /\ update_skeleton s1 = Some s2 /\ get s2 = Some (F x).

(** an Euler sequence: three letters X, Y or Z, no letter twice in a row *)
Definition euler_sequence (code : list nat) : Prop :=
  exists a b c, code = [a; b; c] /\ a <> b /\ b <> c /\ (forall l, In l [a; b; c] -> In l [88; 89; 90]%nat).
(** no bone hangs below [k] *)
Definition leaf (s : skeleton) (k : nat) : Prop := (k < length s)%nat /\ forall j, ~ parent_is s k j.
(** the three angles of every bone, bone after bone *)
Definition all_angles (s : skeleton) : list R := flat_map (fun b => [bn_alpha b; bn_beta b; bn_gamma b]) s.
(** everything but the angles *)
Definition but_angles (b : bone) := (bn_idx b, bn_code b, bn_q b, bn_tw b, bn_t b, bn_parent b, bn_children b).
(** entry [i] of the gradient computed from a skeleton *)
Definition gradient_entry (cs : list chain) (i : nat) (s : skeleton) : option R :=
  match compute_jacobian cs s with
  | Some J => match compute_gradient cs s J with Some g => nth_error g i | None => None end
  | None => None
  end.
(** [D] is the partial derivative at the current angles, with respect to angle [j], of what
    [get] returns *)
Definition partial_derivative (s : skeleton) (j : nat) (get : skeleton -> option R) (D : R) : Prop :=
  exists F x, after_setting s j get F /\ get_angle (Z.of_nat j) s = Some x /\ derivable_pt_lim F x D.
(** [f h] tends to [l] as [h] tends to 0 ([f] may raise only for h = 0) *)
Definition tends_to (f : R -> option R) (l : R) : Prop :=
  forall eps, 0 < eps -> exists d, 0 < d /\ forall h, h <> 0 -> Rabs h < d -> exists v, f h = Some v /\ Rabs (v - l) < eps.
(** entries of the finite difference approximations *)
Definition fd_gradient_entry (cs : list chain) (s : skeleton) (i : nat) (h : R) : option R :=
  match fd_gradient cs s h with Some (g, _) => nth_error g i | None => None end.
Definition fd_hessian_entry (cs : list chain) (s : skeleton) (i j : nat) (h : R) : option R :=
  match fd_hessian cs s h with Some (D, _) => match nth_error D i with Some row => nth_error row j | None => None end | None => None end.
