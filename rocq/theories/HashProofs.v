(** Invariant of the spatial hash grid over histories of insertions. *)
From Verif Require Import Base BvhModel GridModel BvhSpec BvhProofs KdopProofs HashModel.
Open Scope Z_scope.

Section Inv.
  Context {A : Type}.
  (** an insertion: hash value of the cell, object, time stamp *)
  Definition event : Type := Z * A * Z.
  Definition objs (H : list event) (h t : Z) : list A :=
    map (fun e : event => snd (fst e)) (filter (fun e : event => (fst (fst e) =? h) && (snd e =? t))%bool H).
  Definition ins (g : hgrid A) (e : event) : hgrid A := snd (hg_insert g (fst (fst e)) (snd (fst e)) (snd e)).
  Definition run (H : list event) (g : hgrid A) : hgrid A := fold_left ins H g.

  Lemma dict_get_set d k c k' : dict_get (dict_set d k c) k' = if (k =? k') then Some c else dict_get d k'.
  Proof.
    induction d as [|[k0 c0] d IH]; cbn; auto. destruct (Z.eqb_spec k0 k) as [->|N]; cbn.
    - destruct (Z.eqb_spec k k') as [->|]; auto.
    - rewrite IH. destruct (Z.eqb_spec k0 k'), (Z.eqb_spec k k'); auto; congruence.
  Qed.
  (** the cell of every hash value: the stamp is the latest one and the list holds exactly the objects of that stamp *)
  Record inv (H : list event) (g : hgrid A) : Prop := {
    inv_none : forall h, dict_get (hg_table g) h = None -> forall e, In e H -> fst (fst e) <> h;
    inv_some : forall h c, dict_get (hg_table g) h = Some c ->
      (exists e, In e H /\ fst (fst e) = h /\ snd e = c_stamp c) /\
      (forall e, In e H -> fst (fst e) = h -> snd e <= c_stamp c) /\
      (c_ref c < length (hg_heap g))%nat /\
      nth (c_ref c) (hg_heap g) [] = objs H h (c_stamp c) /\ c_size c = Z.of_nat (length (objs H h (c_stamp c)));
    inv_ref : forall h h' c c', dict_get (hg_table g) h = Some c -> dict_get (hg_table g) h' = Some c' -> c_ref c = c_ref c' -> h = h' }.
  Lemma inv_empty : inv [] hg_empty.
  Proof. split; cbn; try discriminate. auto. Qed.
  Lemma objs_app H e h t : objs (H ++ [e]) h t = objs H h t ++ (if (fst (fst e) =? h) && (snd e =? t) then [snd (fst e)] else []).
  Proof. unfold objs. rewrite filter_app, map_app. cbn. destruct ((fst (fst e) =? h) && (snd e =? t))%bool; auto. Qed.
  Lemma objs_none H h t : (forall e, In e H -> fst (fst e) = h -> snd e <> t) -> objs H h t = [].
  Proof.
    intros N. unfold objs. replace (filter _ H) with (@nil event); auto. symmetry. induction H as [|e H IH]; cbn; auto.
    destruct (Z.eqb_spec (fst (fst e)) h) as [E|]; cbn; [|apply IH; intros; apply N; cbn; auto].
    destruct (Z.eqb_spec (snd e) t) as [E'|]; [exfalso; eapply N; cbn; eauto|]. apply IH; intros; apply N; cbn; auto.
  Qed.
  Lemma nth_upd {B} (l : list B) k x k' d : (k < length l)%nat -> nth k' (list_upd l k x) d = if Nat.eqb k k' then x else nth k' l d.
  Proof.
    revert k k'. induction l as [|a l IH]; intros [|k] [|k'] Hk; cbn in *; try lia; auto. apply IH; lia.
  Qed.
  Lemma upd_len {B} (l : list B) k x : length (list_upd l k x) = length l.
  Proof. revert k. induction l; intros [|k]; cbn; auto. Qed.
  Lemma objs_in H h t x : In x (objs H h t) <-> In (h, x, t) H.
  Proof.
    unfold objs. rewrite in_map_iff. split.
    - intros ([[h' x'] t'] & <- & Hf). apply filter_In in Hf. destruct Hf as [Hi Hc]. cbn in *. apply andb_true_iff in Hc. destruct Hc as [E1 E2]. apply Z.eqb_eq in E1, E2. subst. auto.
    - intros Hi. exists (h, x, t). split; auto. apply filter_In. split; auto. cbn. rewrite !Z.eqb_refl. auto.
  Qed.

  (** effect of one insertion *)
  Lemma insert_inv H g h x t : inv H g -> 0 <= t -> (forall e, In e H -> snd e <= t) ->
    let r := hg_insert g h x t in
    inv (H ++ [(h, x, t)]) (snd r) /\
    ((forall e, In e H -> fst (fst e) <> h) -> hg_read (snd r) (fst r) = []) /\
    (forall t', (exists e, In e H /\ fst (fst e) = h /\ snd e = t') -> (forall e, In e H -> fst (fst e) = h -> snd e <= t') ->
       hg_read (snd r) (fst r) = if t' <? t then objs H h t' else objs H h t ++ [x]).
  Proof.
    intros HI Ht HT r. destruct HI as [I1 I2 I3].
    set (heap := hg_heap g) in *. set (n := length heap).
    assert (NL : forall k, (k < n)%nat -> nth k (heap ++ [[]]) [] = nth k heap []) by (intros; apply app_nth1; auto).
    assert (LA : length (heap ++ [[]]) = S n) by (rewrite app_length; cbn; unfold n; lia).
    destruct (dict_get (hg_table g) h) as [c0|] eqn:E0.
    - (* existing cell *)
      destruct (I2 h c0 E0) as ((e0 & H0 & Hh0 & Hs0) & Hmax & Hr & Hl & Hz).
      assert (Hle : c_stamp c0 <= t) by (rewrite <- Hs0; auto).
      assert (Er : r = hg_insert g h x t) by reflexivity. unfold hg_insert in Er. rewrite E0 in Er. fold heap n in Er. unfold cell_add in Er.
      destruct (Z.ltb_spec (c_stamp c0) t) as [Hlt|Hge]; cbn [c_stamp c_size c_ref] in Er; rewrite Er; cbn [fst snd hg_heap hg_table hg_read].
      + (* lazy clear *)
        assert (ON : objs H h t = []) by (apply objs_none; intros e He E; specialize (Hmax e He E); lia).
        rewrite LA. set (heap1 := (heap ++ [[]]) ++ [[]]). assert (L1 : length heap1 = S (S n)) by (unfold heap1; rewrite app_length, LA; cbn; lia).
        assert (N1 : nth (S n) heap1 [] = []) by (unfold heap1; rewrite app_nth2 by lia; rewrite LA, Nat.sub_diag; auto).
        assert (NH : forall k, (k < n)%nat -> nth k (heap_append heap1 (S n) x) [] = nth k heap []).
        { intros k Hk. unfold heap_append. rewrite nth_upd by lia. destruct (Nat.eqb_spec (S n) k); [lia|]. unfold heap1. rewrite app_nth1 by lia. auto. }
        split; [|split].
        * split.
          -- intros h' Hn e He. cbn [hg_table] in Hn. rewrite dict_get_set in Hn. destruct (Z.eqb_spec h h'); [discriminate|]. apply in_app_iff in He. destruct He as [He|[<-|[]]]; [eapply I1; eauto|auto].
          -- intros h' c Hc. cbn [hg_table] in Hc. rewrite dict_get_set in Hc. cbn [hg_heap]. destruct (Z.eqb_spec h h') as [<-|Nh].
             ++ assert (SI : forall a b : cell, Some a = Some b -> a = b) by congruence. apply SI in Hc. subst c. cbn [c_stamp c_ref c_size].
                split; [exists (h, x, t); split; [apply in_app_iff; cbn; auto|auto]|]. split.
                { intros e He E. apply in_app_iff in He. destruct He as [He|[<-|[]]]; [auto|cbn; lia]. }
                unfold heap_append at 1. rewrite upd_len. split; [lia|]. unfold heap_append. rewrite nth_upd by lia. rewrite Nat.eqb_refl, N1. rewrite objs_app. cbn [fst snd]. rewrite !Z.eqb_refl, ON. cbn. split; auto.
             ++ destruct (I2 h' c Hc) as ((e & He & E1 & E2) & M & Lr & Ln & Lz). split; [exists e; split; [apply in_app_iff; auto|auto]|]. split.
                { intros e' He' E'. apply in_app_iff in He'. destruct He' as [He'|[<-|[]]]; [auto|cbn in E'; congruence]. }
                split; [unfold heap_append; rewrite upd_len; fold heap in Lr; fold n in Lr; lia|]. rewrite NH by auto. rewrite objs_app. cbn [fst snd]. destruct (Z.eqb_spec h h'); [congruence|]. cbn. rewrite app_nil_r. auto.
          -- intros h1 h2 c1 c2 H1 H2. cbn [hg_table] in H1, H2. rewrite dict_get_set in H1, H2. destruct (Z.eqb_spec h h1), (Z.eqb_spec h h2); try congruence.
             ++ intros E. exfalso. destruct (I2 h2 c2 H2) as (_ & _ & Lr & _). assert (SI : forall a b : cell, Some a = Some b -> a = b) by congruence. apply SI in H1. subst c1. cbn in E. fold heap in Lr. fold n in Lr. lia.
             ++ intros E. exfalso. destruct (I2 h1 c1 H1) as (_ & _ & Lr & _). assert (SI : forall a b : cell, Some a = Some b -> a = b) by congruence. apply SI in H2. subst c2. cbn in E. fold heap in Lr. fold n in Lr. lia.
             ++ apply I3; auto.
        * intros N. exfalso. eapply N; eauto.
        * intros t' (e & He & E1 & E2) M. assert (Et : t' = c_stamp c0). { pose proof (M e0 H0 Hh0). pose proof (Hmax e He E1). lia. } rewrite Et.
          destruct (Z.ltb_spec (c_stamp c0) t); [|lia]. unfold hg_read. cbn [hg_heap]. rewrite NH by auto. auto.
      + (* same time stamp *)
        assert (Ec : c_stamp c0 = t) by lia.
        assert (NH : forall k, (k < n)%nat -> k <> c_ref c0 -> nth k (heap_append (heap ++ [[]]) (c_ref c0) x) [] = nth k heap []).
        { intros k Hk Hn. unfold heap_append. rewrite nth_upd by (rewrite LA; fold heap in Hr; fold n in Hr; lia). destruct (Nat.eqb_spec (c_ref c0) k); [congruence|]. auto. }
        fold heap in Hr. fold n in Hr.
        assert (NC : nth (c_ref c0) (heap_append (heap ++ [[]]) (c_ref c0) x) [] = objs H h t ++ [x]).
        { unfold heap_append. rewrite nth_upd by lia. rewrite Nat.eqb_refl, NL by auto. rewrite Hl, Ec. auto. }
        split; [|split].
        * split.
          -- intros h' Hn e He. cbn [hg_table] in Hn. rewrite dict_get_set in Hn. destruct (Z.eqb_spec h h'); [discriminate|]. apply in_app_iff in He. destruct He as [He|[<-|[]]]; [eapply I1; eauto|auto].
          -- intros h' c Hc. cbn [hg_table] in Hc. rewrite dict_get_set in Hc. cbn [hg_heap]. destruct (Z.eqb_spec h h') as [<-|Nh].
             ++ assert (SI : forall a b : cell, Some a = Some b -> a = b) by congruence. apply SI in Hc. subst c. cbn [c_stamp c_ref c_size].
                split; [exists (h, x, t); split; [apply in_app_iff; cbn; auto|auto]|]. split.
                { intros e He E. apply in_app_iff in He. destruct He as [He|[<-|[]]]; [auto|cbn; lia]. }
                split; [unfold heap_append; rewrite upd_len; lia|]. rewrite NC, objs_app, Ec. cbn [fst snd]. rewrite !Z.eqb_refl. cbn. split; auto. rewrite app_length, Hz, Ec. cbn. lia.
             ++ destruct (I2 h' c Hc) as ((e & He & E1 & E2) & M & Lr & Ln & Lz). split; [exists e; split; [apply in_app_iff; auto|auto]|]. split.
                { intros e' He' E'. apply in_app_iff in He'. destruct He' as [He'|[<-|[]]]; [auto|cbn in E'; congruence]. }
                fold heap in Lr. fold n in Lr. split; [unfold heap_append; rewrite upd_len; lia|]. rewrite NH; auto. 2: { intros Ex. apply Nh. symmetry. eapply I3; eauto. }
                rewrite objs_app. cbn [fst snd]. destruct (Z.eqb_spec h h'); [congruence|]. cbn. rewrite app_nil_r. auto.
          -- intros h1 h2 c1 c2 H1 H2. cbn [hg_table] in H1, H2. rewrite dict_get_set in H1, H2. destruct (Z.eqb_spec h h1), (Z.eqb_spec h h2); try congruence.
             ++ intros E. assert (SI : forall a b : cell, Some a = Some b -> a = b) by congruence. apply SI in H1. subst c1. cbn in E. subst h1. eapply I3; eauto.
             ++ intros E. assert (SI : forall a b : cell, Some a = Some b -> a = b) by congruence. apply SI in H2. subst c2. cbn in E. subst h2. eapply I3; eauto.
             ++ apply I3; auto.
        * intros N. exfalso. eapply N; eauto.
        * intros t' (e & He & E1 & E2) M. assert (Et : t' = c_stamp c0). { pose proof (M e0 H0 Hh0). pose proof (Hmax e He E1). lia. } rewrite Et.
          destruct (Z.ltb_spec (c_stamp c0) t); [lia|]. unfold hg_read. cbn [hg_heap]. auto.
    - (* first insertion in this cell *)
      assert (ON : objs H h t = []) by (apply objs_none; intros e He E; exfalso; eapply I1; eauto).
      assert (Er : r = hg_insert g h x t) by reflexivity. unfold hg_insert in Er. rewrite E0 in Er. fold heap n in Er. unfold cell_add in Er. rewrite LA in Er. cbn [c_stamp c_size c_ref] in Er.
      set (heap1 := (heap ++ [[]]) ++ [[]]) in Er. assert (L1 : length heap1 = S (S n)) by (unfold heap1; rewrite app_length, LA; cbn; lia).
      assert (N1 : forall k, (n <= k)%nat -> nth k heap1 [] = []).
      { intros k Hk. unfold heap1. rewrite <- app_assoc. rewrite app_nth2 by auto. cbn [app]. destruct (k - length heap)%nat as [|[|[|m]]]; auto. }
      assert (N0 : forall k, (k < n)%nat -> nth k heap1 [] = nth k heap []).
      { intros k Hk. unfold heap1. rewrite app_nth1 by lia. auto. }
      assert (G : exists m heap2, r = (n, mkHG (dict_set (hg_table g) h (mkCell t 1 m)) heap2) /\ (S n <= m < length heap2)%nat /\ nth m heap2 [] = [x] /\
                 (forall k, (k < n)%nat -> nth k heap2 [] = nth k heap []) /\ nth n heap2 [] = []).
      { destruct (Z.ltb_spec 0 t) as [Hlt|Hge]; cbn [c_stamp c_size c_ref] in Er; rewrite Er.
        - rewrite L1. exists (S (S n)), (heap_append (heap1 ++ [[]]) (S (S n)) x). split; auto. assert (L2 : length (heap1 ++ [[]]) = S (S (S n))) by (rewrite app_length, L1; cbn; lia).
          unfold heap_append. rewrite upd_len. split; [lia|]. rewrite !nth_upd by lia. rewrite Nat.eqb_refl. rewrite (app_nth2 heap1) by lia. rewrite L1, Nat.sub_diag. split; auto. split.
          + intros k Hk. rewrite nth_upd by lia. destruct (Nat.eqb_spec (S (S n)) k); [lia|]. rewrite app_nth1 by lia. auto.
          + destruct (Nat.eqb_spec (S (S n)) n); [lia|]. rewrite app_nth1 by lia. auto.
        - assert (t = 0) by lia. subst t. exists (S n), (heap_append heap1 (S n) x). split; auto. unfold heap_append. rewrite upd_len. split; [lia|]. rewrite !nth_upd by lia. rewrite Nat.eqb_refl, N1 by lia. split; auto. split.
          + intros k Hk. rewrite nth_upd by lia. destruct (Nat.eqb_spec (S n) k); [lia|]. auto.
          + destruct (Nat.eqb_spec (S n) n); [lia|]. auto. }
      destruct G as (m & heap2 & Er2 & Hm & Nm & Nk & Nn). rewrite Er2. cbn [fst snd hg_heap hg_table]. split; [|split].
      + split.
        * intros h' Hn e He. cbn [hg_table] in Hn. rewrite dict_get_set in Hn. destruct (Z.eqb_spec h h'); [discriminate|]. apply in_app_iff in He. destruct He as [He|[<-|[]]]; [eapply I1; eauto|auto].
        * intros h' c Hc. cbn [hg_table] in Hc. rewrite dict_get_set in Hc. cbn [hg_heap]. destruct (Z.eqb_spec h h') as [<-|Nh].
          -- assert (SI : forall a b : cell, Some a = Some b -> a = b) by congruence. apply SI in Hc. subst c. cbn [c_stamp c_ref c_size].
             split; [exists (h, x, t); split; [apply in_app_iff; cbn; auto|auto]|]. split.
             { intros e He E. apply in_app_iff in He. destruct He as [He|[<-|[]]]; [auto|cbn; lia]. }
             split; [lia|]. rewrite Nm, objs_app, ON. cbn [fst snd]. rewrite !Z.eqb_refl. cbn. auto.
          -- destruct (I2 h' c Hc) as ((e & He & E1 & E2) & M & Lr & Ln & Lz). split; [exists e; split; [apply in_app_iff; auto|auto]|]. split.
             { intros e' He' E'. apply in_app_iff in He'. destruct He' as [He'|[<-|[]]]; [auto|cbn in E'; congruence]. }
             fold heap in Lr. fold n in Lr. split; [lia|]. rewrite Nk by auto. rewrite objs_app. cbn [fst snd]. destruct (Z.eqb_spec h h'); [congruence|]. cbn. rewrite app_nil_r. auto.
        * intros h1 h2 c1 c2 H1 H2. cbn [hg_table] in H1, H2. rewrite dict_get_set in H1, H2. destruct (Z.eqb_spec h h1), (Z.eqb_spec h h2); try congruence.
          -- intros E. exfalso. destruct (I2 h2 c2 H2) as (_ & _ & Lr & _). assert (SI : forall a b : cell, Some a = Some b -> a = b) by congruence. apply SI in H1. subst c1. cbn in E. fold heap in Lr. fold n in Lr. lia.
          -- intros E. exfalso. destruct (I2 h1 c1 H1) as (_ & _ & Lr & _). assert (SI : forall a b : cell, Some a = Some b -> a = b) by congruence. apply SI in H2. subst c2. cbn in E. fold heap in Lr. fold n in Lr. lia.
          -- apply I3; auto.
      + intros _. unfold hg_read. cbn [hg_heap]. auto.
      + intros t' (e & He & E1 & E2) _. exfalso. eapply I1; eauto.
  Qed.
  (** histories with non-negative, non-decreasing time stamps *)
  Fixpoint monotone (t0 : Z) (H : list event) : Prop := match H with [] => True | e :: H' => t0 <= snd e /\ monotone (snd e) H' end.
  Lemma run_inv H : forall H0 g t0, inv H0 g -> 0 <= t0 -> (forall e, In e H0 -> snd e <= t0) -> monotone t0 H -> inv (H0 ++ H) (run H g).
  Proof.
    induction H as [|[[h x] t] H IH]; intros H0 g t0 HI Ht HT HM; cbn.
    - rewrite app_nil_r. auto.
    - destruct HM as [M1 M2]. cbn [snd] in M1. cut (inv ((H0 ++ [(h, x, t)]) ++ H) (run H (ins g (h, x, t)))); [rewrite <- app_assoc; auto|].
      apply (IH _ _ t); auto; [|lia|].
      + unfold ins. cbn [fst snd]. apply (insert_inv H0 g h x t); auto; [lia|]. intros e He. specialize (HT e He). lia.
      + intros e He. apply in_app_iff in He. destruct He as [He|[<-|[]]]; [specialize (HT e He); lia|cbn; lia].
  Qed.
End Inv.
