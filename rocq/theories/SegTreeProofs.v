(** Proofs about SegTreeModel.v. *)
From Coq Require Import List ZArith Lia Bool Reals Lra.
From Verif Require Import NatDivLia PyCommon CommonProofs SegTreeModel SegTreeSpec.
Import ListNotations.
Set Implicit Arguments.

Lemma pow2_pos : forall n, 1 <= 2 ^ n.
Proof. induction n; simpl; lia. Qed.

Lemma pow2_S : forall n, 2 ^ (S n) = 2 * 2 ^ n.
Proof. intros; simpl; lia. Qed.

Lemma level_off_S : forall l, level_off (S l) = 2 * level_off l + 1.
Proof. intros. unfold level_off. rewrite pow2_S. pose proof (pow2_pos l). lia. Qed.

Lemma cap_le_pow : forall c, 1 <= c -> c <= 2 ^ (Nat.log2_up c).
Proof.
  intros c Hc. destruct (Nat.eq_dec c 1) as [->|]; [cbn; lia|].
  apply Nat.log2_up_spec. lia.
Qed.

Section Generic.
Variable A : Type.
Variable op : A -> A -> A.
Variable init : A.
Notation get := (get init).

Definition node_ok (a : list A) (p : nat) : Prop := get a p = op (get a (2 * p + 1)) (get a (2 * p + 2)).

(* nodes whose consistency may be broken: the proper ancestors of leaves/nodes idx of level n *)
Definition covered (n : nat) (idx : list nat) (p : nat) : Prop :=
  exists m i, m < n /\ In i idx /\ p = level_off m + i / 2 ^ (n - m).


Lemma repair_spec : forall n d a idx,
  n <= d -> length a = 2 ^ (S d) - 1 -> (forall i, In i idx -> i < 2 ^ n) ->
  (forall p, p < level_off d -> node_ok a p \/ covered n idx p) ->
  let a' := repair op init n (level_off n) a idx in
  length a' = length a /\
  (forall p, level_off n <= p -> get a' p = get a p) /\
  (forall p, p < level_off d -> node_ok a' p).
Proof.
  induction n as [|l IH]; intros d a idx Hd Hlen Hidx Hok; cbn [repair]; unfold repair_level.
  - split; [auto|split; [auto|]]. intros p Hp. destruct (Hok p Hp) as [H|[m [i [H _]]]]; auto. lia.
  - set (idx' := unique (map (fun i => i / 2) idx)).
    set (parents := map (fun i => level_off l + i) idx').
    set (news := map (fun i => op (get a (level_off (S l) + 2 * i)) (get a (level_off (S l) + 2 * i + 1))) idx').
    set (a1 := scatter a parents news).
    pose proof (pow2_pos l) as Hpl. pose proof (pow2_pos (S l)) as Hpsl.
    assert (Hdl : 2 ^ (S l) <= 2 ^ d) by (apply Nat.pow_le_mono_r; lia).
    assert (Hidx' : forall i, In i idx' -> i < 2 ^ l).
    { intros i Hi. unfold idx' in Hi. rewrite in_unique in Hi. apply in_map_iff in Hi.
      destruct Hi as [x [<- Hx]]. specialize (Hidx x Hx). rewrite pow2_S in Hidx. lia. }
    assert (Hlen1 : length a1 = length a) by apply scatter_length.
    assert (Hnotin : forall p, level_off (S l) <= p -> ~ In p parents).
    { intros p Hp Hin. unfold parents in Hin. apply in_map_iff in Hin. destruct Hin as [i [<- Hi]].
      specialize (Hidx' i Hi). rewrite level_off_S in Hp. unfold level_off in Hp. lia. }
    assert (Hsame : forall p, ~ In p parents -> get a1 p = get a p).
    { intros p Hp. unfold SegTreeModel.get, a1. now apply nth_scatter_notin. }
    assert (Hnew : forall i, In i idx' ->
              get a1 (level_off l + i) = op (get a (level_off (S l) + 2 * i)) (get a (level_off (S l) + 2 * i + 1))).
    { intros i Hi. unfold SegTreeModel.get at 1, a1, parents, news.
      rewrite (nth_scatter_map (fun i => level_off l + i)); auto.
      - intros; lia.
      - apply unique_nodup.
      - rewrite Hlen. specialize (Hidx' i Hi). rewrite pow2_S in *. unfold level_off. lia. }
    specialize (IH d a1 idx'). fold idx' parents news a1.
    destruct IH as [IH1 [IH2 IH3]].
    + lia.
    + now rewrite Hlen1.
    + exact Hidx'.
    + intros p Hp.
      destruct (in_dec Nat.eq_dec p parents) as [Hin|Hnin].
      * left. unfold parents in Hin. apply in_map_iff in Hin. destruct Hin as [i [<- Hi]].
        unfold node_ok. rewrite Hnew by auto.
        replace (2 * (level_off l + i) + 1) with (level_off (S l) + 2 * i) by (rewrite level_off_S; lia).
        replace (2 * (level_off l + i) + 2) with (level_off (S l) + 2 * i + 1) by (rewrite level_off_S; lia).
        rewrite !Hsame; auto; apply Hnotin; lia.
      * destruct (Hok p Hp) as [Hn|Hc].
        -- destruct (in_dec Nat.eq_dec (2 * p + 1) parents) as [Hc1|Hc1];
           [|destruct (in_dec Nat.eq_dec (2 * p + 2) parents) as [Hc2|Hc2]].
           ++ right. unfold parents in Hc1. apply in_map_iff in Hc1. destruct Hc1 as [i [He Hi]].
              specialize (Hidx' i Hi). destruct l as [|k]; [cbn in *; lia|].
              exists k, i. split; [lia|split; [auto|]]. replace (S k - k) with 1 by lia. cbn [Nat.pow Nat.mul].
              rewrite level_off_S in He. lia.
           ++ right. unfold parents in Hc2. apply in_map_iff in Hc2. destruct Hc2 as [i [He Hi]].
              specialize (Hidx' i Hi). destruct l as [|k]; [cbn in *; lia|].
              exists k, i. split; [lia|split; [auto|]]. replace (S k - k) with 1 by lia. cbn [Nat.pow Nat.mul].
              rewrite level_off_S in He. lia.
           ++ left. unfold node_ok. rewrite !Hsame; auto.
        -- destruct Hc as [m [i [Hm [Hi He]]]].
           assert (Hi2 : In (i / 2) idx').
           { unfold idx'. rewrite in_unique. apply in_map_iff. now exists i. }
           destruct (Nat.eq_dec m l) as [->|Hne].
           ++ exfalso. apply Hnin. unfold parents. apply in_map_iff. exists (i / 2). split; auto.
              rewrite He. replace (S l - l) with 1 by lia. now cbn [Nat.pow Nat.mul].
           ++ right. exists m, (i / 2). split; [lia|split; auto]. rewrite He.
              replace (S l - m) with (S (l - m)) by lia. rewrite pow2_S.
              rewrite Nat.div_div; auto. pose proof (pow2_pos (l - m)); lia.
  + split; [congruence|]. split.
    * intros p Hp. rewrite IH2 by (rewrite level_off_S in Hp; lia). apply Hsame. now apply Hnotin.
    * exact IH3.
Qed.

(** The representation invariant of a tree. *)
Definition tree_ok (t : tree A) : Prop :=
  1 <= capacity t /\
  height t = Nat.log2_up (capacity t) + 1 /\
  length (arr t) = 2 ^ height t - 1 /\
  (forall p, p < level_off (height t - 1) -> node_ok (arr t) p) /\
  (forall i, capacity t <= i -> i < 2 ^ (height t - 1) -> get (arr t) (level_off (height t - 1) + i) = init).

Lemma tree_ok_cap : forall t, tree_ok t -> capacity t <= 2 ^ (height t - 1).
Proof.
  intros t [H1 [H2 _]]. rewrite H2. replace (Nat.log2_up (capacity t) + 1 - 1) with (Nat.log2_up (capacity t)) by lia.
  now apply cap_le_pow.
Qed.

Lemma tree_ok_size : forall t, tree_ok t -> level_size t = capacity t.
Proof. intros t H. unfold level_size. pose proof (tree_ok_cap H). lia. Qed.

Lemma get_repeat : forall k p, nth p (repeat init k) init = init.
Proof. induction k as [|k IH]; intros [|p]; simpl; auto. Qed.

Lemma init_ok : op init init = init -> forall c, 1 <= c -> tree_ok (tree_init init c).
Proof.
  intros Hu c Hc. unfold tree_init, tree_ok; cbn [capacity height arr].
  split; [auto|]. split; [auto|]. split; [apply repeat_length|].
  split; intros; unfold node_ok, SegTreeModel.get; rewrite ?get_repeat; auto.
Qed.

(** Leaves. *)
Definition leaf (t : tree A) (i : nat) : A := get (arr t) (level_off (height t - 1) + i).

Lemma values_length : forall t, tree_ok t -> length (values t) = capacity t.
Proof.
  intros t H. pose proof (tree_ok_cap H) as Hc. destruct H as [H1 [H2 [H3 _]]].
  unfold values. rewrite firstn_length, skipn_length, H3.
  replace (2 ^ height t) with (2 * 2 ^ (height t - 1)) by (rewrite <- pow2_S; f_equal; lia).
  unfold level_off. lia.
Qed.

Lemma values_nth : forall t i, tree_ok t -> i < capacity t -> nth i (values t) init = leaf t i.
Proof.
  intros t i H Hi. unfold values, leaf, SegTreeModel.get.
  rewrite nth_firstn_lt by auto. now rewrite nth_skipn_add.
Qed.

Lemma values_map : forall t, tree_ok t -> values t = map (leaf t) (seq 0 (capacity t)).
Proof.
  intros t H. apply (@list_eq_nth _ init).
  - rewrite values_length by auto. now rewrite map_length, seq_length.
  - intros i Hi. rewrite values_length in Hi by auto.
    rewrite values_nth by auto. now rewrite nth_map_seq.
Qed.

Lemma set_values_bind : forall t idx vs, set_values op init t idx vs =
  bind (check_idx t idx) (fun is_ =>
  bind (broadcast (length is_) vs) (fun vs' =>
    let off := level_off (height t - 1) in
    let a := scatter (arr t) (map (fun i => off + i mod level_size t) is_) vs' in
    Ok (mkTree (capacity t) (height t) (repair op init (height t - 1) off a is_)))).
Proof.
  intros. unfold set_values, set_values_eff. destruct (check_idx t idx); [|reflexivity]. cbn [bind].
  destruct (broadcast _ vs); reflexivity.
Qed.

Lemma run_set_eq : forall t c, run_set op init t c =
  match set_values op init t (fst c) (snd c) with Ok t' => t' | Err _ => t end.
Proof.
  intros. unfold run_set, set_values, set_values_eff. destruct (check_idx t (fst c)); [|reflexivity].
  destruct (broadcast _ _); reflexivity.
Qed.

(** set_values preserves the invariant and assigns the leaves. *)
Lemma check_idx_spec : forall t idx, tree_ok t ->
  (forall k, In k idx -> pyvalid (capacity t) k) ->
  check_idx t idx = Ok (map (fun k => Z.to_nat (pynorm (capacity t) k)) idx).
Proof.
  intros t idx H Hv. unfold check_idx. rewrite tree_ok_size by auto.
  destruct (forallb _ idx) eqn:E.
  - f_equal. apply map_ext_in. intros k Hk. specialize (Hv k Hk). unfold pyvalid in Hv. f_equal.
    unfold pynorm. destruct (Z.ltb_spec k 0).
    + rewrite <- (Z_mod_plus_full k 1), Z.mul_1_l. apply Z.mod_small. lia.
    + apply Z.mod_small. lia.
  - exfalso. apply not_true_iff_false in E. apply E. apply forallb_forall. intros k Hk.
    specialize (Hv k Hk). unfold pyvalid in Hv. apply andb_true_intro. split; [apply Z.ltb_lt|apply Z.leb_le]; lia.
Qed.

Lemma check_idx_bad : forall t idx, tree_ok t ->
  ~ (forall k, In k idx -> pyvalid (capacity t) k) -> check_idx t idx = Err EIndex.
Proof.
  intros t idx H Hv. unfold check_idx. rewrite tree_ok_size by auto.
  destruct (forallb _ idx) eqn:E; auto.
  exfalso. apply Hv. intros k Hk. rewrite forallb_forall in E. specialize (E k Hk).
  apply andb_prop in E. destruct E as [E1 E2]. apply Z.ltb_lt in E1. apply Z.leb_le in E2.
  unfold pyvalid. lia.
Qed.

Lemma broadcast_spec : forall n (vs : list A), (length vs = n \/ length vs = 1) ->
  exists vs', broadcast n vs = Ok vs' /\ length vs' = n.
Proof.
  intros n vs H. unfold broadcast. destruct (Nat.eqb_spec (length vs) n) as [He|He].
  - now exists vs.
  - destruct H as [H|H]; [lia|]. destruct vs as [|v [|? ?]]; simpl in H; try lia.
    exists (repeat v n). split; auto. apply repeat_length.
Qed.

Lemma nth_scatter_last : forall ps (a : list A) vs j d,
  length ps = length vs -> (forall p, In p ps -> p < length a) ->
  nth j (scatter a ps vs) d =
  match find (fun kv => Nat.eqb (fst kv) j) (rev (combine ps vs)) with
  | Some kv => snd kv | None => nth j a d end.
Proof.
  clear op.
  induction ps as [|p ps IH]; intros a [|v vs] j d Hl Hb; simpl in *; try lia; auto.
  rewrite IH; [|lia|intros q Hq; rewrite upd_length; apply Hb; now right].
  assert (Hfind : forall (l1 l2 : list (nat * A)), find (fun kv => Nat.eqb (fst kv) j) (l1 ++ l2) =
     match find (fun kv => Nat.eqb (fst kv) j) l1 with Some x => Some x | None => find (fun kv => Nat.eqb (fst kv) j) l2 end).
  { induction l1 as [|x l1 IHl]; intros l2; simpl; auto. destruct (Nat.eqb (fst x) j); auto. }
  rewrite Hfind. destruct (find _ (rev (combine ps vs))); auto.
  simpl. rewrite nth_upd by (apply Hb; now left). now destruct (Nat.eqb p j).
Qed.

Lemma set_values_ok : forall t idx vs, tree_ok t -> acceptable (capacity t) (idx, vs) ->
  exists t', set_values op init t idx vs = Ok t' /\ tree_ok t' /\ capacity t' = capacity t /\
    forall i, i < capacity t -> leaf t' i = assigned (capacity t) (leaf t) (call_pairs (idx, vs)) i.
Proof.
  intros t idx vs Ht [Hv Hl]. simpl in Hv, Hl.
  rewrite set_values_bind. rewrite check_idx_spec by auto. cbn [bind].
  set (c := capacity t) in *.
  set (is_ := map (fun k => Z.to_nat (pynorm c k)) idx).
  destruct (@broadcast_spec (length is_) vs) as [vs' [Hb Hlen']].
  { unfold is_. rewrite map_length. destruct Hl; [left|right]; lia. }
  rewrite Hb. cbn [bind].
  assert (Hcap : c <= 2 ^ (height t - 1)) by (now apply tree_ok_cap).
  pose proof Ht as [Hc1 [Hh [Hlen [Hnode Hpad]]]]. fold c in Hc1, Hh, Hpad.
  set (d := height t - 1) in *.
  assert (Hhd : height t = S d) by lia.
  assert (His : forall i, In i is_ -> i < c).
  { intros i Hi. unfold is_ in Hi. apply in_map_iff in Hi. destruct Hi as [k [<- Hk]].
    specialize (Hv k Hk). unfold pyvalid in Hv. unfold pynorm. destruct (Z.ltb_spec k 0); lia. }
  set (a := scatter (arr t) _ vs').
  assert (Hmapmod : map (fun i => level_off d + i mod level_size t) is_ = map (fun i => level_off d + i) is_).
  { apply map_ext_in. intros i Hi. rewrite tree_ok_size by auto. fold c. rewrite Nat.mod_small; auto. }
  assert (Hla : length a = 2 ^ S d - 1).
  { unfold a. rewrite scatter_length, Hlen. now rewrite Hhd. }
  destruct (@repair_spec d d a is_) as [R1 [R2 R3]]; auto.
  { intros i Hi. specialize (His i Hi). lia. }
  { intros p Hp.
    assert (Hin : forall q, q < level_off d -> get a q = get (arr t) q).
    { intros q Hq. unfold SegTreeModel.get, a. apply nth_scatter_notin. intros Hin.
      apply in_map_iff in Hin. destruct Hin as [i [He Hi]]. lia. }
    destruct (Nat.lt_ge_cases (2 * p + 2) (level_off d)) as [Hs|Hs].
    - left. unfold node_ok. rewrite !Hin by lia. now apply Hnode.
    - (* parent of leaves *)
      destruct d as [|e]; [cbn in Hp; lia|].
      set (x := p - level_off e).
      assert (Hpx : p = level_off e + x) by (unfold x; rewrite level_off_S in Hs; lia).
      destruct (in_dec Nat.eq_dec x (map (fun i => i / 2) is_)) as [Hx|Hx].
      + right. apply in_map_iff in Hx. destruct Hx as [i [He Hi]].
        exists e, i. split; [lia|split; [auto|]]. replace (S e - e) with 1 by lia. cbn [Nat.pow Nat.mul]. lia.
      + left. unfold node_ok. rewrite Hin by auto.
        assert (Hch : forall q, q = 2 * p + 1 \/ q = 2 * p + 2 -> get a q = get (arr t) q).
        { intros q Hq. unfold SegTreeModel.get, a. apply nth_scatter_notin. rewrite Hmapmod. intros Hin2.
          apply in_map_iff in Hin2. destruct Hin2 as [i [He Hi]]. apply Hx. apply in_map_iff. exists i. split; auto.
          rewrite level_off_S in He. lia. }
        rewrite !Hch by auto. now apply Hnode. }
  exists (mkTree c (height t) (repair op init d (level_off d) a is_)).
  assert (Hleaf : forall i, i < 2 ^ d ->
     get (repair op init d (level_off d) a is_) (level_off d + i) =
     assigned c (leaf t) (call_pairs (idx, vs)) i).
  { intros i Hi. rewrite R2 by lia. unfold SegTreeModel.get, a. rewrite Hmapmod.
    rewrite nth_scatter_last.
    - unfold assigned. fold d.
      assert (Hcp : call_pairs (idx, vs) = combine idx vs').
      { unfold call_pairs. cbn [fst snd]. unfold broadcast in Hb. unfold is_ in Hb. rewrite map_length in Hb.
        destruct vs as [|v [|v2 vs]].
        - destruct (Nat.eqb_spec (@length A []) (length idx)); [|discriminate]. now inversion Hb.
        - assert (vs' = repeat v (length idx)) as ->.
          { destruct (Nat.eqb_spec (length [v]) (length idx)) as [E|E]; inversion Hb; subst; auto.
            rewrite <- E. reflexivity. }
          clear. induction idx; simpl; auto. now f_equal.
        - destruct (Nat.eqb_spec (length (v :: v2 :: vs)) (length idx)); [|discriminate]. now inversion Hb. }
      rewrite Hcp. clear Hcp.
      assert (Hg : forall (ks : list Z) (ws : list A), (forall k, In k ks -> pyvalid c k) ->
        find (fun kv => Nat.eqb (fst kv) (level_off d + i))
             (rev (combine (map (fun i0 => level_off d + i0) (map (fun k => Z.to_nat (pynorm c k)) ks)) ws)) =
        match find (fun kv => Z.eqb (pynorm c (fst kv)) (Z.of_nat i)) (rev (combine ks ws)) with
        | Some kv => Some (level_off d + i, snd kv) | None => None end).
      { intros ks ws Hks.
        assert (Hr : forall (prs : list (Z * A)), (forall kv, In kv prs -> pyvalid c (fst kv)) ->
          find (fun kv => Nat.eqb (fst kv) (level_off d + i))
             (map (fun kv => (level_off d + Z.to_nat (pynorm c (fst kv)), snd kv)) prs) =
          match find (fun kv => Z.eqb (pynorm c (fst kv)) (Z.of_nat i)) prs with
          | Some kv => Some (level_off d + i, snd kv) | None => None end).
        { induction prs as [|[k w] prs IHp]; intros Hprs; simpl; auto.
          pose proof (Hprs (k, w) (or_introl eq_refl)) as Hk. simpl in Hk.
          assert (0 <= pynorm c k)%Z by (unfold pynorm, pyvalid in *; destruct (Z.ltb_spec k 0); lia).
          destruct (Z.eqb_spec (pynorm c k) (Z.of_nat i)) as [E|E];
          destruct (Nat.eqb_spec (level_off d + Z.to_nat (pynorm c k)) (level_off d + i)) as [E2|E2]; try lia; auto.
          - now rewrite E2.
          - apply IHp. intros kv Hkv. apply Hprs. now right. }
        rewrite <- Hr.
        - rewrite map_rev. f_equal. f_equal. clear. revert ws.
          induction ks as [|k ks IHk]; intros [|w ws]; simpl; auto. f_equal. apply IHk.
        - intros kv Hkv. apply in_rev in Hkv. destruct kv as [k w]. apply in_combine_l in Hkv. now apply Hks. }
      unfold is_. rewrite Hg by auto. destruct (find _ (rev (combine idx vs'))); auto.
    - rewrite map_length. auto.
    - intros p Hp. apply in_map_iff in Hp. destruct Hp as [k [<- Hk]]. specialize (His k Hk).
      rewrite Hlen, Hhd, pow2_S. unfold level_off. lia. }
  split; [reflexivity|]. split; [|split; [reflexivity|]].
  - unfold tree_ok. cbn [capacity height arr]. fold d.
    split; [auto|split; [auto|split; [|split; [exact R3|]]]].
    + rewrite R1, Hla. now rewrite Hhd.
    + intros i Hi1 Hi2. rewrite Hleaf by auto. unfold assigned.
      destruct (find _ _) as [kv|] eqn:E.
      * exfalso. apply find_some in E. destruct E as [Hin He]. apply in_rev in Hin. apply Z.eqb_eq in He.
        assert (Hk : In (fst kv) idx).
        { unfold call_pairs in Hin. cbn [fst snd] in Hin. destruct kv as [k w]. cbn [fst].
          destruct vs as [|v [|v2 vs]].
          - now apply in_combine_l in Hin.
          - apply in_map_iff in Hin. destruct Hin as [x [Ex Hx]]. inversion Ex; now subst.
          - now apply in_combine_l in Hin. }
        specialize (Hv _ Hk). unfold pyvalid in Hv. unfold pynorm in He. destruct (Z.ltb_spec (fst kv) 0); lia.
      * unfold leaf. fold d. now apply Hpad.
  - intros i Hi. unfold leaf at 1. cbn [capacity height arr]. fold d. apply Hleaf. lia.
Qed.

Lemma set_values_rejected : forall t idx vs, tree_ok t -> ~ acceptable (capacity t) (idx, vs) ->
  exists e, set_values op init t idx vs = Err e.
Proof.
  intros t idx vs Ht Hn. rewrite set_values_bind.
  destruct (check_idx t idx) as [is_|e] eqn:E; [|now exists e]. cbn [bind].
  assert (Hval : forall k, In k idx -> pyvalid (capacity t) k).
  { unfold check_idx in E. rewrite tree_ok_size in E by auto. destruct (forallb _ idx) eqn:Ef; [|discriminate].
    intros k Hk. rewrite forallb_forall in Ef. specialize (Ef k Hk). apply andb_prop in Ef. destruct Ef as [E1 E2].
    apply Z.ltb_lt in E1. apply Z.leb_le in E2. unfold pyvalid. lia. }
  rewrite check_idx_spec in E by auto. inversion E; subst is_. rewrite map_length.
  unfold broadcast. destruct (Nat.eqb_spec (length vs) (length idx)) as [El|El].
  - exfalso. apply Hn. split; simpl; auto.
  - destruct vs as [|v [|v2 vs]]; simpl; eauto.
    exfalso. apply Hn. split; simpl; auto.
Qed.

Lemma acceptable_dec : forall n (c : list Z * list A), {acceptable n c} + {~ acceptable n c}.
Proof.
  intros n [idx vs]. unfold acceptable. simpl.
  destruct (forallb (fun k => (Z.leb (- Z.of_nat n) k) && (Z.ltb k (Z.of_nat n))) idx) eqn:E.
  - destruct (Nat.eq_dec (length vs) (length idx)) as [E1|E1]; [|destruct (Nat.eq_dec (length vs) 1) as [E2|E2]].
    + left. split; auto. intros k Hk. rewrite forallb_forall in E. specialize (E k Hk). unfold pyvalid.
      apply andb_prop in E. rewrite Z.leb_le, Z.ltb_lt in E. lia.
    + left. split; auto. intros k Hk. rewrite forallb_forall in E. specialize (E k Hk). unfold pyvalid.
      apply andb_prop in E. rewrite Z.leb_le, Z.ltb_lt in E. lia.
    + right. intros [_ [H|H]]; lia.
  - right. intros [H _]. apply not_true_iff_false in E. apply E. apply forallb_forall. intros k Hk.
    specialize (H k Hk). unfold pyvalid in H. apply andb_true_intro. rewrite Z.leb_le, Z.ltb_lt. lia.
Qed.

Lemma assigned_ext : forall n (f g : nat -> A) prs i, f i = g i -> assigned n f prs i = assigned n g prs i.
Proof. intros. unfold assigned. destruct (find _ _); auto. Qed.

Lemma history_ok : op init init = init -> forall c cs, 1 <= c ->
  let t := run_sets op init (tree_init init c) cs in
  tree_ok t /\ capacity t = c /\
  exists f, array_after c init cs f /\ forall i, i < c -> leaf t i = f i.
Proof.
  intros Hu c cs Hc. induction cs as [|x cs IH] using rev_ind; simpl.
  - pose proof (init_ok Hu Hc) as Hok. split; [auto|split; [auto|]].
    exists (fun _ => init). split; [constructor|]. intros i Hi. unfold leaf, SegTreeModel.get, tree_init. cbn [arr].
    apply get_repeat.
  - unfold run_sets in *. rewrite fold_left_app. simpl in *.
    set (t := fold_left (run_set op init) cs (tree_init init c)) in *.
    destruct IH as [Ht [Hcap [f [Haa Hf]]]].
    rewrite run_set_eq. destruct x as [idx vs]. cbn [fst snd].
    destruct (acceptable_dec (capacity t) (idx, vs)) as [Ha|Ha].
    + destruct (@set_values_ok t idx vs Ht Ha) as [t' [E [Ht' [Hcap' Hl]]]]. rewrite E.
      split; [auto|split; [congruence|]].
      exists (assigned c f (call_pairs (idx, vs))). split.
      * apply aa_ok; auto. congruence.
      * intros i Hi. rewrite Hl by lia. rewrite Hcap. apply assigned_ext. auto.
    + destruct (@set_values_rejected t idx vs Ht Ha) as [e E]. rewrite E.
      split; [auto|split; [auto|]]. exists f. split; auto. apply aa_rejected; auto. congruence.
Qed.

Lemma array_after_fun : forall n cs f g, array_after n init cs f -> array_after n init cs g -> forall i, f i = g i.
Proof.
  intros n cs. induction cs as [|c cs IH] using rev_ind; intros f g Hf Hg i.
  - inversion Hf as [|cs' ? ? ? ? E|cs' ? ? ? ? E]; try (destruct cs'; discriminate).
    inversion Hg as [|cs'' ? ? ? ? E|cs'' ? ? ? ? E]; try (destruct cs''; discriminate). auto.
  - inversion Hf as [E0|cs1 c1 f1 H1 Ha1 E1|cs1 c1 f1 H1 Ha1 E1].
    + destruct cs; discriminate.
    + apply app_inj_tail in E1. destruct E1; subst.
      inversion Hg as [E0|cs2 c2 f2 H2 Ha2 E2|cs2 c2 f2 H2 Ha2 E2].
      * destruct cs; discriminate.
      * apply app_inj_tail in E2. destruct E2; subst. apply assigned_ext. now apply IH.
      * apply app_inj_tail in E2. destruct E2; subst. contradiction.
    + apply app_inj_tail in E1. destruct E1; subst.
      inversion Hg as [E0|cs2 c2 f2 H2 Ha2 E2|cs2 c2 f2 H2 Ha2 E2].
      * destruct cs; discriminate.
      * apply app_inj_tail in E2. destruct E2; subst. contradiction.
      * apply app_inj_tail in E2. destruct E2; subst. now apply IH.
Qed.

End Generic.
