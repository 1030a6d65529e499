(** Closedness of the generated surfaces: the triangles are images of abstract ones under an injective node
    numbering; on abstract nodes every directed edge has a unique name. *)
From Verif Require Import Base BvhModel BvhProofs GridModel GridProofs VolModel ListProofs SurfModel SurfSpec.
From Coq Require Import Permutation.
Open Scope Z_scope.

(** ** generic: edge list as the image of a duplicate-free list of edge names *)
Lemma flat_map_map {A B C} (f : B -> C) (g : A -> list B) l : map f (flat_map g l) = flat_map (fun x => map f (g x)) l.
Proof. induction l; cbn; auto. rewrite map_app, IHl. auto. Qed.
Lemma flat_map_flat {A B C} (f : B -> list C) (g : A -> list B) l : flat_map f (flat_map g l) = flat_map (fun x => flat_map f (g x)) l.
Proof. induction l; cbn; auto. rewrite flat_map_app, IHl. auto. Qed.
Lemma flat_map_single {A B C} (f : B -> list C) (g : A -> B) l : flat_map f (map g l) = flat_map (fun x => f (g x)) l.
Proof. induction l; cbn; auto. rewrite IHl. auto. Qed.
Lemma NoDup_map_on {A B} (f : A -> B) l : NoDup l -> (forall x y, In x l -> In y l -> f x = f y -> x = y) -> NoDup (map f l).
Proof.
  induction l as [|a l IH]; intros ND H; cbn; [constructor|]. inversion ND; subst. constructor.
  - intros Hi. apply in_map_iff in Hi. destruct Hi as (x & E & Hx). assert (x = a) by (apply H; cbn; auto). subst; auto.
  - apply IH; auto. intros; apply H; cbn; auto.
Qed.
Lemma NoDup_zupto n : NoDup (zupto n).
Proof. unfold zupto. apply FinFun.Injective_map_NoDup; [intros a b; apply Nat2Z.inj|apply seq_NoDup]. Qed.
(** successor modulo J *)
Lemma succ_mod J j : 3 <= J -> 0 <= j < J -> (j + 1 < J /\ (j + 1) mod J = j + 1) \/ (j + 1 = J /\ (j + 1) mod J = 0).
Proof.
  intros HJ Hj. destruct (Z.eq_dec (j + 1) J) as [E|E]; [right|left; split; [lia|apply Z.mod_small; lia]]. rewrite E, Z_mod_same_full. auto.
Qed.
Lemma pred_mod J j : 3 <= J -> 0 <= j < J -> exists j', 0 <= j' < J /\ (j' + 1) mod J = j.
Proof.
  intros HJ Hj. destruct (Z.eq_dec j 0) as [->|E]; [exists (J - 1)|exists (j - 1)]; split; try lia.
  - replace (J - 1 + 1) with J by lia. apply Z_mod_same_full.
  - replace (j - 1 + 1) with j by lia. apply Z.mod_small. lia.
Qed.

(** ** sweep *)
(** names of the directed edges; k is the position within the triangle(s) *)
Inductive ename := EB (k j : Z) | EM (k i j : Z) | ET (k j : Z).
Section Sweep.
  Variables H J : Z.
  Let r j := (j + 1) mod J.
  Let B := H * J + 1.
  Let T := H * J.
  Let P i j := j * H + i.
  Definition sw_eval (e : ename) : Z * Z :=
    match e with
    | EB k j => if k =? 0 then (B, P 0 (r j)) else if k =? 1 then (P 0 (r j), P 0 j) else (P 0 j, B)
    | EM k i j => if k =? 0 then (P i j, P i (r j)) else if k =? 1 then (P i (r j), P (i + 1) (r j)) else if k =? 2 then (P (i + 1) (r j), P i j)
                  else if k =? 3 then (P i j, P (i + 1) (r j)) else if k =? 4 then (P (i + 1) (r j), P (i + 1) j) else (P (i + 1) j, P i j)
    | ET k j => if k =? 0 then (T, P (H - 1) j) else if k =? 1 then (P (H - 1) j, P (H - 1) (r j)) else (P (H - 1) (r j), T)
    end.
  Definition sw_names : list ename :=
    flat_map (fun j => [EB 0 j; EB 1 j; EB 2 j]) (zupto J) ++
    flat_map (fun i => flat_map (fun j => [EM 0 i j; EM 1 i j; EM 2 i j; EM 3 i j; EM 4 i j; EM 5 i j]) (zupto J)) (zupto (H - 1)) ++
    flat_map (fun j => [ET 0 j; ET 1 j; ET 2 j]) (zupto J).
  Lemma sw_edges : directed_edges (sweep_bottom H J B ++ sweep_middle H J ++ sweep_top (H + 2) H J T) = map sw_eval sw_names.
  Proof.
    unfold directed_edges, sw_names, sweep_bottom, sweep_middle, sweep_top. rewrite !flat_map_app, !map_app, !flat_map_map, !flat_map_single, flat_map_flat.
    f_equal; [|f_equal].
    - apply flat_map_ext. intros j. cbn. unfold P, r. rewrite !Z.add_0_r, !(Z.mul_comm _ H). auto.
    - apply flat_map_ext. intros i. rewrite flat_map_flat, flat_map_map. apply flat_map_ext. intros j. reflexivity.
    - apply flat_map_ext. intros j. cbn [tri_edges map sw_eval Z.eqb]. unfold P, r. replace (H + 2 - 3) with (H - 1) by lia. auto.
  Qed.
  Lemma in_sw_names e : In e sw_names <->
    match e with
    | EB k j => 0 <= k < 3 /\ 0 <= j < J
    | EM k i j => 0 <= k < 6 /\ 0 <= i < H - 1 /\ 0 <= j < J
    | ET k j => 0 <= k < 3 /\ 0 <= j < J
    end.
  Proof.
    unfold sw_names. rewrite !in_app_iff, !in_flat_map. split.
    - intros [(j & Hj & He)|[(i & Hi & He)|(j & Hj & He)]].
      + apply in_zupto in Hj. cbn in He. destruct He as [<-|[<-|[<-|[]]]]; lia.
      + apply in_flat_map in He. destruct He as (j & Hj & He). rewrite in_zupto in *. cbn in He. destruct He as [<-|[<-|[<-|[<-|[<-|[<-|[]]]]]]]; lia.
      + apply in_zupto in Hj. cbn in He. destruct He as [<-|[<-|[<-|[]]]]; lia.
    - destruct e as [k j|k i j|k j].
      + intros [Hk Hj]. left. exists j. rewrite in_zupto. split; auto. assert (k = 0 \/ k = 1 \/ k = 2) as [->|[->| ->]] by lia; cbn; auto.
      + intros (Hk & Hi & Hj). right; left. exists i. rewrite in_zupto. split; auto. apply in_flat_map. exists j. rewrite in_zupto. split; auto.
        assert (k = 0 \/ k = 1 \/ k = 2 \/ k = 3 \/ k = 4 \/ k = 5) as [->|[->|[->|[->|[->| ->]]]]] by lia; cbn; auto 10.
      + intros [Hk Hj]. right; right. exists j. rewrite in_zupto. split; auto. assert (k = 0 \/ k = 1 \/ k = 2) as [->|[->| ->]] by lia; cbn; auto.
  Qed.
  Ltac nd := repeat (apply NoDup_cons; [cbn; intros Q; decompose [or] Q; try contradiction; congruence|]); apply NoDup_nil.
  Ltac ina Q := cbn in Q; decompose [or] Q; clear Q; try contradiction; subst.
  Lemma sw_names_NoDup : NoDup sw_names.
  Proof.
    unfold sw_names.
    assert (N1 : NoDup (flat_map (fun j => [EB 0 j; EB 1 j; EB 2 j]) (zupto J))).
    { apply NoDup_flat_map; [apply NoDup_zupto|intros; nd|]. intros x y b _ _ H1 H2. cbn in H1, H2. decompose [or] H1; try contradiction; decompose [or] H2; try contradiction; congruence. }
    assert (N3 : NoDup (flat_map (fun j => [ET 0 j; ET 1 j; ET 2 j]) (zupto J))).
    { apply NoDup_flat_map; [apply NoDup_zupto|intros; nd|]. intros x y b _ _ H1 H2. cbn in H1, H2. decompose [or] H1; try contradiction; decompose [or] H2; try contradiction; congruence. }
    assert (N2 : NoDup (flat_map (fun i => flat_map (fun j => [EM 0 i j; EM 1 i j; EM 2 i j; EM 3 i j; EM 4 i j; EM 5 i j]) (zupto J)) (zupto (H - 1)))).
    { apply NoDup_flat_map; [apply NoDup_zupto| |].
      - intros i _. apply NoDup_flat_map; [apply NoDup_zupto|intros; nd|]. intros x y b _ _ H1 H2. cbn in H1, H2. decompose [or] H1; try contradiction; decompose [or] H2; try contradiction; congruence.
      - intros x y b _ _ H1 H2. apply in_flat_map in H1, H2. destruct H1 as (j1 & _ & H1), H2 as (j2 & _ & H2). cbn in H1, H2. decompose [or] H1; try contradiction; decompose [or] H2; try contradiction; congruence. }
    assert (App : forall (a b : list ename), NoDup a -> NoDup b -> (forall x, In x a -> ~ In x b) -> NoDup (a ++ b)).
    { clear. induction a as [|x a IH]; cbn; intros b Na Nb D; auto. inversion Na; subst. constructor; [rewrite in_app_iff; intros [|]; [auto|eapply D; eauto]|]. apply IH; auto; intros; apply D; auto. }
    apply App; [auto|apply App; auto|].
    - intros x Hx Hy. apply in_flat_map in Hx, Hy. destruct Hx as (i & _ & Hx). apply in_flat_map in Hx. destruct Hx as (j & _ & Hx), Hy as (j' & _ & Hy). cbn in Hx, Hy. decompose [or] Hx; try contradiction; subst; decompose [or] Hy; try contradiction; discriminate.
    - intros x Hx Hy. apply in_app_iff in Hy. apply in_flat_map in Hx. destruct Hx as (j & _ & Hx). destruct Hy as [Hy|Hy]; apply in_flat_map in Hy; destruct Hy as (i & _ & Hy); [apply in_flat_map in Hy; destruct Hy as (j' & _ & Hy)|];
        cbn in Hx, Hy; decompose [or] Hx; try contradiction; subst; decompose [or] Hy; try contradiction; discriminate.
  Qed.
  Lemma P_inj i j i' j' : 0 <= i < H -> 0 <= i' < H -> P i j = P i' j' -> i = i' /\ j = j'.
  Proof. unfold P. intros Hi Hi' E. assert (j = j') by (destruct (Z.lt_trichotomy j j') as [L|[L|L]]; auto; exfalso; nia). subst. lia. Qed.
  Lemma P_range i j : 0 <= i < H -> 0 <= j < J -> 0 <= P i j < H * J.
  Proof. unfold P. intros. nia. Qed.
  (** symbolic nodes *)
  Inductive node3 := NB | NT | NP (i j : Z).
  Definition nidx (n : node3) : Z := match n with NB => B | NT => T | NP i j => P i j end.
  Definition nvalid (n : node3) : Prop := match n with NP i j => 0 <= i < H /\ 0 <= j < J | _ => True end.
  Lemma nidx_inj a b : nvalid a -> nvalid b -> nidx a = nidx b -> a = b.
  Proof.
    destruct a as [| |i j], b as [| |i' j']; cbn; unfold B, T; intros Ha Hb E; auto; try lia.
    - pose proof (P_range i' j' (proj1 Hb) (proj2 Hb)). lia.
    - pose proof (P_range i' j' (proj1 Hb) (proj2 Hb)). lia.
    - pose proof (P_range i j (proj1 Ha) (proj2 Ha)). lia.
    - pose proof (P_range i j (proj1 Ha) (proj2 Ha)). lia.
    - apply P_inj in E; [|lia|lia]. destruct E; subst; auto.
  Qed.
  Definition sw_sym (e : ename) : node3 * node3 :=
    match e with
    | EB k j => if k =? 0 then (NB, NP 0 (r j)) else if k =? 1 then (NP 0 (r j), NP 0 j) else (NP 0 j, NB)
    | EM k i j => if k =? 0 then (NP i j, NP i (r j)) else if k =? 1 then (NP i (r j), NP (i + 1) (r j)) else if k =? 2 then (NP (i + 1) (r j), NP i j)
                  else if k =? 3 then (NP i j, NP (i + 1) (r j)) else if k =? 4 then (NP (i + 1) (r j), NP (i + 1) j) else (NP (i + 1) j, NP i j)
    | ET k j => if k =? 0 then (NT, NP (H - 1) j) else if k =? 1 then (NP (H - 1) j, NP (H - 1) (r j)) else (NP (H - 1) (r j), NT)
    end.
  Hypotheses (HH : 1 <= H) (HJ : 3 <= J).
  Lemma r_range j : 0 <= j < J -> 0 <= r j < J.
  Proof. intros Hj. unfold r. apply Z.mod_pos_bound. lia. Qed.
  Lemma sw_sym_valid e : In e sw_names -> nvalid (fst (sw_sym e)) /\ nvalid (snd (sw_sym e)) /\ sw_eval e = (nidx (fst (sw_sym e)), nidx (snd (sw_sym e))) /\ fst (sw_sym e) <> snd (sw_sym e).
  Proof.
    intros He. apply in_sw_names in He. destruct e as [k j|k i j|k j]; cbn [sw_sym sw_eval].
    - destruct He as [Hk Hj]. pose proof (r_range j Hj). pose proof (succ_mod J j HJ Hj) as Hr. fold (r j) in Hr.
      destruct (k =? 0), (k =? 1); cbn; repeat split; try lia; try congruence; intros E; injection E; lia.
    - destruct He as (Hk & Hi & Hj). pose proof (r_range j Hj). pose proof (succ_mod J j HJ Hj) as Hr. fold (r j) in Hr.
      destruct (k =? 0), (k =? 1), (k =? 2), (k =? 3), (k =? 4); cbn; repeat split; try lia; try congruence; intros E; injection E; lia.
    - destruct He as [Hk Hj]. pose proof (r_range j Hj). pose proof (succ_mod J j HJ Hj) as Hr. fold (r j) in Hr.
      destruct (k =? 0), (k =? 1); cbn; repeat split; try lia; try congruence; intros E; injection E; lia.
  Qed.
  Lemma k3 k : 0 <= k < 3 -> k = 0 \/ k = 1 \/ k = 2. Proof. lia. Qed.
  Lemma k6 k : 0 <= k < 6 -> k = 0 \/ k = 1 \/ k = 2 \/ k = 3 \/ k = 4 \/ k = 5. Proof. lia. Qed.
  Lemma sw_sym_inj e e' : In e sw_names -> In e' sw_names -> sw_sym e = sw_sym e' -> e = e'.
  Proof.
    intros He He' E. apply in_sw_names in He, He'.
    assert (S : forall j, 0 <= j < J -> (j + 1 < J /\ r j = j + 1) \/ (j + 1 = J /\ r j = 0)) by (intros; apply succ_mod; auto).
    destruct e as [k j|k i j|k j], e' as [k' j'|k' i' j'|k' j'];
      repeat match goal with Q : _ /\ _ |- _ => destruct Q end;
      repeat match goal with Q : ?k < 3 |- _ => assert (k = 0 \/ k = 1 \/ k = 2) as [->|[->| ->]] by lia; clear Q
                            | Q : ?k < 6 |- _ => assert (k = 0 \/ k = 1 \/ k = 2 \/ k = 3 \/ k = 4 \/ k = 5) as [->|[->|[->|[->|[->| ->]]]]] by lia; clear Q end;
      cbn [sw_sym Z.eqb Pos.eqb] in E; try discriminate;
      pose proof (S j ltac:(split; assumption)) as S1; pose proof (S j' ltac:(split; assumption)) as S2; clear S;
      try (set (rj := r j) in * ); try (set (rj' := r j') in * ); try clearbody rj; try clearbody rj';
      injection E; intros; subst; try (f_equal; lia); exfalso; lia.
  Qed.
  Lemma sw_rev e : In e sw_names -> exists e', In e' sw_names /\ sw_sym e' = (snd (sw_sym e), fst (sw_sym e)).
  Proof.
    intros He. apply in_sw_names in He.
    assert (X : forall e', In e' sw_names /\ sw_sym e' = (snd (sw_sym e), fst (sw_sym e)) -> exists e', In e' sw_names /\ sw_sym e' = (snd (sw_sym e), fst (sw_sym e))) by eauto.
    destruct e as [k j|k i j|k j].
    - destruct He as [Hk Hj]. pose proof (r_range j Hj) as Hr. destruct (pred_mod J j HJ Hj) as (j0 & Hj0 & Ej0). fold (r j0) in Ej0.
      destruct (k3 k Hk) as [->|[->| ->]].
      + apply (X (EB 2 (r j))). rewrite in_sw_names. split; [lia|reflexivity].
      + destruct (Z.eq_dec H 1) as [E|E]; [apply (X (ET 1 j))|apply (X (EM 0 0 j))]; rewrite in_sw_names; (split; [lia|]); cbn; [replace (H - 1) with 0 by lia|]; reflexivity.
      + apply (X (EB 0 j0)). rewrite in_sw_names. split; [lia|]. cbn. rewrite Ej0. reflexivity.
    - destruct He as (Hk & Hi & Hj). pose proof (r_range j Hj) as Hr. destruct (pred_mod J j HJ Hj) as (j0 & Hj0 & Ej0). fold (r j0) in Ej0.
      destruct (k6 k Hk) as [->|[->|[->|[->|[->| ->]]]]].
      + destruct (Z.eq_dec i 0) as [->|E]; [apply (X (EB 1 j))|apply (X (EM 4 (i - 1) j))]; rewrite in_sw_names; (split; [lia|]); cbn; [|replace (i - 1 + 1) with i by lia]; reflexivity.
      + apply (X (EM 5 i (r j))). rewrite in_sw_names. split; [lia|reflexivity].
      + apply (X (EM 3 i j)). rewrite in_sw_names. split; [lia|reflexivity].
      + apply (X (EM 2 i j)). rewrite in_sw_names. split; [lia|reflexivity].
      + destruct (Z.eq_dec (i + 1) (H - 1)) as [E|E]; [apply (X (ET 1 j))|apply (X (EM 0 (i + 1) j))]; rewrite in_sw_names; (split; [lia|]); cbn; [rewrite E|]; reflexivity.
      + apply (X (EM 1 i j0)). rewrite in_sw_names. split; [lia|]. cbn. rewrite Ej0. reflexivity.
    - destruct He as [Hk Hj]. pose proof (r_range j Hj) as Hr. destruct (pred_mod J j HJ Hj) as (j0 & Hj0 & Ej0). fold (r j0) in Ej0.
      destruct (k3 k Hk) as [->|[->| ->]].
      + apply (X (ET 2 j0)). rewrite in_sw_names. split; [lia|]. cbn. rewrite Ej0. reflexivity.
      + destruct (Z.eq_dec H 1) as [E|E]; [apply (X (EB 1 j))|apply (X (EM 4 (H - 2) j))]; rewrite in_sw_names; (split; [lia|]); cbn; [replace (H - 1) with 0 by lia|replace (H - 2 + 1) with (H - 1) by lia]; reflexivity.
      + apply (X (ET 0 (r j))). rewrite in_sw_names. split; [lia|reflexivity].
  Qed.
  Lemma sw_eval_inj e e' : In e sw_names -> In e' sw_names -> sw_eval e = sw_eval e' -> e = e'.
  Proof.
    intros He He' E. destruct (sw_sym_valid e He) as (V1 & V2 & Ev & _). destruct (sw_sym_valid e' He') as (V1' & V2' & Ev' & _).
    rewrite Ev, Ev' in E. injection E as E1 E2. apply nidx_inj in E1; auto. apply nidx_inj in E2; auto. apply sw_sym_inj; auto. destruct (sw_sym e), (sw_sym e'); cbn in *; congruence.
  Qed.
  Lemma sweep_closed : closed_mesh (sweep_bottom H J B ++ sweep_middle H J ++ sweep_top (H + 2) H J T).
  Proof.
    unfold closed_mesh. rewrite sw_edges. split; [apply NoDup_map_on; [apply sw_names_NoDup|apply sw_eval_inj]|]. split.
    - intros a b Hab. apply in_map_iff in Hab. destruct Hab as (e & E & He). destruct (sw_rev e He) as (e' & He' & E').
      destruct (sw_sym_valid e He) as (_ & _ & Ev & _). destruct (sw_sym_valid e' He') as (_ & _ & Ev' & _). apply in_map_iff. exists e'. split; auto. rewrite Ev', E'. cbn. rewrite Ev in E. injection E as <- <-. auto.
    - intros a b Hab. apply in_map_iff in Hab. destruct Hab as (e & E & He). destruct (sw_sym_valid e He) as (V1 & V2 & Ev & Hne). rewrite Ev in E. injection E as <- <-.
      intros E. apply nidx_inj in E; auto.
  Qed.
  Lemma sweep_covers : covers_indices (H * J + 2) (sweep_bottom H J B ++ sweep_middle H J ++ sweep_top (H + 2) H J T).
  Proof.
    unfold covers_indices. rewrite sw_edges.
    assert (X : forall n, nvalid n -> exists e, In e sw_names /\ fst (sw_sym e) = n).
    { intros [| |i j] Hn; cbn in Hn.
      - exists (EB 0 0). rewrite in_sw_names. split; [lia|reflexivity].
      - exists (ET 0 0). rewrite in_sw_names. split; [lia|reflexivity].
      - destruct (Z.eq_dec i (H - 1)) as [->|E]; [exists (ET 1 j)|exists (EM 0 i j)]; rewrite in_sw_names; (split; [lia|reflexivity]). }
    assert (Rg : forall n, nvalid n -> 0 <= nidx n < H * J + 2).
    { intros [| |i j] Hn; cbn in *; unfold B, T; try nia. pose proof (P_range i j (proj1 Hn) (proj2 Hn)). lia. }
    intros v. split.
    - intros Hv. assert (Hn : exists n, nvalid n /\ nidx n = v).
      { destruct (Z.eq_dec v (H * J + 1)); [exists NB; cbn; unfold B; auto|]. destruct (Z.eq_dec v (H * J)); [exists NT; cbn; unfold T; auto|].
        exists (NP (v mod H) (v / H)). cbn. unfold P. pose proof (Z.mod_pos_bound v H ltac:(lia)). pose proof (Z.div_mod v H ltac:(lia)). split; [split; auto|]. { split; [apply Z.div_pos; lia|apply Z.div_lt_upper_bound; lia]. } lia. }
      destruct Hn as (n & Hn & <-). destruct (X n Hn) as (e & He & <-). destruct (sw_sym_valid e He) as (V1 & V2 & Ev & _).
      exists (nidx (fst (sw_sym e))), (nidx (snd (sw_sym e))). split; auto. apply in_map_iff. exists e. auto.
    - intros (a & b & Hab & Hv). apply in_map_iff in Hab. destruct Hab as (e & E & He). destruct (sw_sym_valid e He) as (V1 & V2 & Ev & _). rewrite Ev in E. injection E as <- <-.
      destruct Hv as [->| ->]; apply Rg; auto.
  Qed.
End Sweep.
Lemma sweep_count H J B N T : 1 <= H -> 0 <= J -> Z.of_nat (length (sweep_bottom H J B ++ sweep_middle H J ++ sweep_top N H J T)) = 2 * J * H.
Proof.
  intros HH HJ. unfold sweep_bottom, sweep_middle, sweep_top. rewrite !app_length, !map_length.
  assert (L : forall n, 0 <= n -> Z.of_nat (length (zupto n)) = n) by (intros; unfold zupto; rewrite map_length, seq_length; lia).
  assert (F : forall {A B} (f : A -> list B) c l, (forall x, In x l -> length (f x) = c) -> length (flat_map f l) = (length l * c)%nat).
  { clear. intros A B f c. induction l as [|a l IH]; intros Hx; cbn; auto. rewrite app_length, IH by (intros; apply Hx; cbn; auto). rewrite Hx by (cbn; auto). auto. }
  rewrite (F _ _ _ (length (zupto J) * 2)%nat) by (intros; apply F; intros; reflexivity).
  rewrite !Nat2Z.inj_add, !Nat2Z.inj_mul, !L by lia. lia.
Qed.

(** ** torus *)
Inductive tname := TE (k i j : Z).
Section Torus.
  Variables I K : Z.
  Let ri i := (i + 1) mod I.
  Let rk k := (k + 1) mod K.
  Let P i k := k * I + i.
  Definition to_sym (e : tname) : (Z * Z) * (Z * Z) :=
    match e with TE n i k =>
      let a := (i, k) in let b := (i, rk k) in let c := (ri i, rk k) in let d := (ri i, k) in
      if n =? 0 then (a, b) else if n =? 1 then (b, c) else if n =? 2 then (c, a) else if n =? 3 then (a, c) else if n =? 4 then (c, d) else (d, a)
    end.
  Definition to_idx (p : Z * Z) := P (fst p) (snd p).
  Definition to_eval (e : tname) : Z * Z := (to_idx (fst (to_sym e)), to_idx (snd (to_sym e))).
  Definition to_names : list tname :=
    flat_map (fun k => flat_map (fun i => [TE 0 i k; TE 1 i k; TE 2 i k; TE 3 i k; TE 4 i k; TE 5 i k]) (zupto I)) (zupto K).
  Lemma to_edges : directed_edges (torus_triangles I K) = map to_eval to_names.
  Proof.
    unfold directed_edges, to_names, torus_triangles. rewrite flat_map_map, flat_map_flat. apply flat_map_ext. intros k. rewrite flat_map_flat, flat_map_map. apply flat_map_ext. intros i. reflexivity.
  Qed.
  Lemma in_to_names n i k : In (TE n i k) to_names <-> 0 <= n < 6 /\ 0 <= i < I /\ 0 <= k < K.
  Proof.
    unfold to_names. rewrite in_flat_map. split.
    - intros (k' & Hk & He). apply in_flat_map in He. destruct He as (i' & Hi & He). rewrite in_zupto in *. cbn in He. decompose [or] He; try contradiction; match goal with Q : TE _ _ _ = _ |- _ => injection Q as <- <- <- end; lia.
    - intros (Hn & Hi & Hk). exists k. rewrite in_zupto. split; auto. apply in_flat_map. exists i. rewrite in_zupto. split; auto.
      assert (n = 0 \/ n = 1 \/ n = 2 \/ n = 3 \/ n = 4 \/ n = 5) as [->|[->|[->|[->|[->| ->]]]]] by lia; cbn; auto 10.
  Qed.
  Lemma to_names_NoDup : NoDup to_names.
  Proof.
    apply NoDup_flat_map; [apply NoDup_zupto| |].
    - intros k _. apply NoDup_flat_map; [apply NoDup_zupto| |].
      + intros i _. repeat (apply NoDup_cons; [cbn; intros Q; decompose [or] Q; try contradiction; congruence|]); apply NoDup_nil.
      + intros x y b _ _ H1 H2. cbn in H1, H2. decompose [or] H1; try contradiction; decompose [or] H2; try contradiction; congruence.
    - intros x y b _ _ H1 H2. apply in_flat_map in H1, H2. destruct H1 as (j1 & _ & H1), H2 as (j2 & _ & H2). cbn in H1, H2. decompose [or] H1; try contradiction; decompose [or] H2; try contradiction; congruence.
  Qed.
  Hypotheses (HI : 3 <= I) (HK : 3 <= K).
  Definition tvalid (p : Z * Z) := 0 <= fst p < I /\ 0 <= snd p < K.
  Lemma to_idx_inj p q : tvalid p -> tvalid q -> to_idx p = to_idx q -> p = q.
  Proof.
    destruct p as [i k], q as [i' k']. unfold tvalid, to_idx, P. cbn. intros Hp Hq E.
    assert (k = k') by (destruct (Z.lt_trichotomy k k') as [L|[L|L]]; auto; exfalso; nia). subst. f_equal. lia.
  Qed.
  Lemma to_sym_valid e : In e to_names -> tvalid (fst (to_sym e)) /\ tvalid (snd (to_sym e)) /\ fst (to_sym e) <> snd (to_sym e).
  Proof.
    destruct e as [n i k]. intros He. apply in_to_names in He. destruct He as (Hn & Hi & Hk).
    pose proof (succ_mod I i HI Hi) as Si. pose proof (succ_mod K k HK Hk) as Sk. fold (ri i) in Si. fold (rk k) in Sk.
    unfold tvalid. cbn [to_sym]. cbv zeta.
    destruct (n =? 0), (n =? 1), (n =? 2), (n =? 3), (n =? 4); cbn [fst snd]; (split; [lia|split; [lia|]]); intros E; injection E; lia.
  Qed.
  Lemma to_sym_inj e e' : In e to_names -> In e' to_names -> to_sym e = to_sym e' -> e = e'.
  Proof.
    destruct e as [n i k], e' as [n' i' k']. intros He He' E. apply in_to_names in He, He'. destruct He as (Hn & Hi & Hk), He' as (Hn' & Hi' & Hk').
    pose proof (succ_mod I i HI Hi) as Si. pose proof (succ_mod K k HK Hk) as Sk. fold (ri i) in Si. fold (rk k) in Sk.
    pose proof (succ_mod I i' HI Hi') as Si'. pose proof (succ_mod K k' HK Hk') as Sk'. fold (ri i') in Si'. fold (rk k') in Sk'.
    cbn [to_sym] in E. cbv zeta in E. set (a := ri i) in *. set (b := rk k) in *. set (a' := ri i') in *. set (b' := rk k') in *. clearbody a b a' b'.
    assert (n = 0 \/ n = 1 \/ n = 2 \/ n = 3 \/ n = 4 \/ n = 5) as Cn by lia. assert (n' = 0 \/ n' = 1 \/ n' = 2 \/ n' = 3 \/ n' = 4 \/ n' = 5) as Cn' by lia. clear Hn Hn'.
    destruct Cn as [->|[->|[->|[->|[->| ->]]]]], Cn' as [->|[->|[->|[->|[->| ->]]]]]; cbn in E; injection E; intros; subst; try (f_equal; lia); exfalso; lia.
  Qed.
  Lemma to_rev e : In e to_names -> exists e', In e' to_names /\ to_sym e' = (snd (to_sym e), fst (to_sym e)).
  Proof.
    destruct e as [n i k]. intros He. apply in_to_names in He. destruct He as (Hn & Hi & Hk).
    assert (Hri : 0 <= ri i < I) by (apply Z.mod_pos_bound; lia). assert (Hrk : 0 <= rk k < K) by (apply Z.mod_pos_bound; lia).
    destruct (pred_mod I i HI Hi) as (i0 & Hi0 & Ei). destruct (pred_mod K k HK Hk) as (k0 & Hk0 & Ek). fold (ri i0) in Ei. fold (rk k0) in Ek.
    assert (n = 0 \/ n = 1 \/ n = 2 \/ n = 3 \/ n = 4 \/ n = 5) as Cn by lia. destruct Cn as [->|[->|[->|[->|[->| ->]]]]].
    - exists (TE 4 i0 k). rewrite in_to_names. split; [lia|]. cbn. rewrite Ei. auto.
    - exists (TE 5 i (rk k)). rewrite in_to_names. split; [lia|]. reflexivity.
    - exists (TE 3 i k). rewrite in_to_names. split; [lia|]. reflexivity.
    - exists (TE 2 i k). rewrite in_to_names. split; [lia|]. reflexivity.
    - exists (TE 0 (ri i) k). rewrite in_to_names. split; [lia|]. reflexivity.
    - exists (TE 1 i k0). rewrite in_to_names. split; [lia|]. cbn. rewrite Ek. reflexivity.
  Qed.
  Lemma to_eval_inj e e' : In e to_names -> In e' to_names -> to_eval e = to_eval e' -> e = e'.
  Proof.
    intros He He' E. destruct (to_sym_valid e He) as (V1 & V2 & _). destruct (to_sym_valid e' He') as (V1' & V2' & _).
    injection E as E1 E2. apply to_idx_inj in E1; auto. apply to_idx_inj in E2; auto. apply to_sym_inj; auto. destruct (to_sym e), (to_sym e'); cbn in *; congruence.
  Qed.
  Lemma torus_closed : closed_mesh (torus_triangles I K).
  Proof.
    unfold closed_mesh. rewrite to_edges. split; [apply NoDup_map_on; [apply to_names_NoDup|apply to_eval_inj]|]. split.
    - intros a b Hab. apply in_map_iff in Hab. destruct Hab as (e & E & He). destruct (to_rev e He) as (e' & He' & E').
      apply in_map_iff. exists e'. split; auto. unfold to_eval in *. rewrite E'. cbn. injection E as <- <-. auto.
    - intros a b Hab. apply in_map_iff in Hab. destruct Hab as (e & E & He). destruct (to_sym_valid e He) as (V1 & V2 & Hne). injection E as <- <-.
      intros E. apply to_idx_inj in E; auto.
  Qed.
  Lemma torus_covers : covers_indices (I * K) (torus_triangles I K).
  Proof.
    unfold covers_indices. rewrite to_edges. intros v. split.
    - intros Hv. pose proof (Z.mod_pos_bound v I ltac:(lia)). pose proof (Z.div_mod v I ltac:(lia)).
      assert (0 <= v / I < K) by (split; [apply Z.div_pos; lia|apply Z.div_lt_upper_bound; lia]).
      exists v, (to_idx (v mod I, rk (v / I))). split; [|left; auto]. apply in_map_iff. exists (TE 0 (v mod I) (v / I)). rewrite in_to_names. split; [|lia].
      unfold to_eval. cbn [to_sym Z.eqb]. cbv zeta. cbn [fst snd]. f_equal. unfold to_idx, P; cbn. lia.
    - intros (a & b & Hab & Hv). apply in_map_iff in Hab. destruct Hab as (e & E & He). destruct (to_sym_valid e He) as (V1 & V2 & _). injection E as <- <-. unfold tvalid, to_idx, P in *.
      destruct Hv as [->| ->]; nia.
  Qed.
End Torus.
