(** Proofs about the memory pool. *)
From Coq Require Import List Arith Lia Bool Permutation.
From Verif Require Import Lib Outcome PoolModel PoolSpec.
From Coq Require Import List.
Import ListNotations.

Lemma write_word_same m a w : write_word m a w (fst a) (snd a) = w.
Proof. unfold write_word. rewrite !Nat.eqb_refl. auto. Qed.
Lemma write_word_other m a w c o : apart 8 a (c, o) -> write_word m a w c o = m c o.
Proof.
  unfold write_word, apart. cbn [fst snd]. intros H. destruct (Nat.eqb_spec c (fst a)); auto. destruct (Nat.eqb_spec o (snd a)); [lia|].
  destruct (Nat.ltb_spec o (snd a + 8)); auto. destruct (Nat.ltb_spec (snd a) (o + 8)); auto. lia.
Qed.
Lemma write_byte_other m a c o : c <> fst a \/ snd a < o \/ o + 8 <= snd a -> write_byte m a c o = m c o.
Proof.
  unfold write_byte. intros H. destruct (Nat.eqb_spec c (fst a)); auto. destruct (Nat.leb_spec o (snd a)); auto. destruct (Nat.ltb_spec (snd a) (o + 8)); auto. lia.
Qed.

Lemma skipn_cons_nth {T} (l : list T) : forall k b, nth_error l k = Some b -> skipn k l = b :: skipn (S k) l.
Proof. induction l as [|x l IH]; intros [|k] b H; try discriminate; [injection H as ->; reflexivity|]. apply (IH k b H). Qed.
(** the blocks cut in the chunks *)
Definition nelem (p : pool) : nat := chunk_size / esize p.
Definition is_block (p : pool) (a : addr) : Prop := In (fst a) (chunks p) /\ exists k, k < nelem p /\ snd a = k * esize p.
Lemma blocks_apart p a b : is_block p a -> is_block p b -> a <> b -> apart (esize p) a b.
Proof.
  intros (_ & k & Hk & Ea) (_ & j & Hj & Eb) N. destruct a as [c o], b as [c' o']. cbn in *. unfold apart. cbn. destruct (Nat.eq_dec c c') as [->|]; auto.
  right. subst. destruct (Nat.lt_trichotomy k j) as [L|[->|L]]; [left|congruence|right]; nia.
Qed.
Lemma block_within p a : 0 < esize p -> is_block p a -> within (esize p) chunk_size (chunks p) a.
Proof.
  intros He (H & k & Hk & E). split; auto. rewrite E. unfold nelem in Hk. pose proof (Nat.div_mod chunk_size (esize p) ltac:(lia)). nia.
Qed.

(** the free list *)
Fixpoint chain (m : memory) (h : option addr) (l : list addr) : Prop :=
  match l with [] => h = None | a :: r => h = Some a /\ exists next, m (fst a) (snd a) = Link next /\ chain m next r end.
Lemma chain_ext m m' : forall l h, (forall a, In a l -> m' (fst a) (snd a) = m (fst a) (snd a)) -> chain m h l -> chain m' h l.
Proof.
  induction l as [|a l IH]; intros h H C; auto. destruct C as (E & nx & En & C). split; auto. exists nx. split; [rewrite H; cbn; auto|]. apply IH; auto. intros b Hb. apply H. cbn; auto.
Qed.

(** ** grow *)
Lemma link_all_ok c es n : 8 <= es -> 0 < n -> forall fuel k m, k <= n - 1 -> n - 1 - k <= fuel -> exists m', link_all fuel m c (k * es) ((n - 1) * es) es = Ok m' /\
  (forall j, k <= j < n - 1 -> m' c (j * es) = Link (Some (c, S j * es))) /\ (forall j, j < k -> m' c (j * es) = m c (j * es)) /\ (forall c' o, c' <> c -> m' c' o = m c' o).
Proof.
  intros He Hn. induction fuel as [|fuel IH]; intros k m Hk Hf; cbn [link_all].
  - assert (k = n - 1) as -> by lia. rewrite Nat.ltb_irrefl. exists m. split; auto. split; [lia|]. auto.
  - destruct (Nat.ltb_spec (k * es) ((n - 1) * es)) as [L|L].
    + assert (k < n - 1) by nia. replace (k * es + es) with (S k * es) by lia.
      destruct (IH (S k) (write_word m (c, k * es) (Link (Some (c, S k * es))))) as (m' & E & H1 & H2 & H3); try lia. exists m'. split; auto. split; [|split].
      * intros j Hj. destruct (Nat.eq_dec j k) as [->|]; [|apply H1; lia]. rewrite H2 by lia. apply (write_word_same m (c, k * es)).
      * intros j Hj. rewrite H2 by lia. apply write_word_other. right. cbn. nia.
      * intros c' o Hc. rewrite H3 by auto. apply write_word_other. left. cbn. auto.
    + assert (k = n - 1) as -> by nia. exists m. split; auto. split; [lia|]. auto.
Qed.
Definition chunk_blocks (c es n k : nat) : list addr := map (fun j => (c, j * es)) (seq k (n - k)).
Lemma chain_chunk m c es n : forall len k, k + len = n -> 0 < len -> (forall j, k <= j < n - 1 -> m c (j * es) = Link (Some (c, S j * es))) -> m c ((n - 1) * es) = Link None ->
  chain m (Some (c, k * es)) (chunk_blocks c es n k).
Proof.
  induction len as [|len IH]; intros k Hl Hp H1 H2; [lia|]. unfold chunk_blocks. replace (n - k) with (S len) by lia. cbn [seq map chain]. split; auto. cbn [fst snd].
  destruct len as [|len].
  - assert (k = n - 1) as -> by lia. exists None. split; auto. cbn. auto.
  - exists (Some (c, S k * es)). split; [apply H1; lia|]. replace (S len) with (n - S k) by lia. apply (IH (S k)); try lia; auto. intros j Hj. apply H1. lia.
Qed.
Record inv (p : pool) (held fl : list addr) : Prop := Inv {
  i_es : 8 <= esize p <= chunk_size;
  i_chunks : forall c, In c (chunks p) <-> c < length (chunks p);
  i_nodup_chunks : NoDup (chunks p);
  i_chain : chain (mem p) (hd_free p) fl;
  i_nodup : NoDup (fl ++ held);
  i_all : forall a, In a (fl ++ held) <-> is_block p a;
  i_len : length (fl ++ held) = length (chunks p) * nelem p }.
Lemma nelem_pos p : 8 <= esize p <= chunk_size -> 0 < nelem p.
Proof. intros H. unfold nelem. apply Nat.div_str_pos. lia. Qed.
Lemma NoDup_app' {T} (l r : list T) : NoDup l -> NoDup r -> (forall x, In x l -> ~ In x r) -> NoDup (l ++ r).
Proof. induction 1 as [|x l Hx N IH]; intros Hr H; cbn; auto. constructor; [rewrite in_app_iff; intros [?|?]; [auto|apply (H x); cbn; auto]|]. apply IH; auto. intros y Hy. apply H. cbn; auto. Qed.
Lemma grow_ok p held : inv p held [] -> exists p' fl, grow p = Ok p' /\ inv p' held fl /\ fl <> [] /\ chunks p' = length (chunks p) :: chunks p /\ esize p' = esize p.
Proof.
  intros [He Hc Hnc Hch Hn Ha Hl]. pose proof (nelem_pos p He) as Hp. unfold grow. fold (nelem p). rewrite (proj2 (Nat.eqb_neq _ _)) by lia.
  set (c := length (chunks p)) in *. destruct (link_all_ok c (esize p) (nelem p) ltac:(lia) Hp (nelem p) 0 (mem p)) as (m & E & H1 & _ & H3); try lia.
  change (0 * esize p) with 0 in E. rewrite E. cbn [rbind]. set (m2 := write_word m (c, (nelem p - 1) * esize p) (Link None)).
  assert (Nc : ~ In c (chunks p)) by (rewrite Hc; lia).
  eexists. exists (chunk_blocks c (esize p) (nelem p) 0). split; [reflexivity|]. split; [|split; [|split; reflexivity]].
  - constructor; cbn [esize chunks hd_free mem length]; auto.
    + intros x. cbn. rewrite Hc. lia.
    + constructor; auto.
    + apply (chain_chunk m2 c (esize p) (nelem p) (nelem p) 0); try lia.
      * intros j Hj. unfold m2. rewrite write_word_other; [apply H1; lia|]. right. cbn. nia.
      * apply (write_word_same m (c, (nelem p - 1) * esize p)).
    + apply NoDup_app'; auto.
      * unfold chunk_blocks. apply FinFun.Injective_map_NoDup; [|apply seq_NoDup]. intros i j Hij. injection Hij. nia.
      * intros x Hx. unfold chunk_blocks in Hx. apply in_map_iff in Hx as (j & <- & _). intros H. apply Ha in H as (H & _). cbn in H. auto.
    + intros a. rewrite in_app_iff. change (In a held <-> is_block p a) with (In a ([] ++ held) <-> is_block p a) in *. cbn in Ha. rewrite Ha. unfold is_block. cbn [chunks esize]. change (nelem _) with (nelem p).
      destruct a as [x o]. unfold chunk_blocks. rewrite in_map_iff. split.
      * intros [(j & Ej & Hj)|(Hx & k & Hk & Ek)].
        { injection Ej as <- <-. apply in_seq in Hj. cbn. split; auto. exists j. split; auto. lia. }
        { cbn. split; auto. exists k. auto. }
      * cbn. intros ([<-|Hx] & k & Hk & ->); [left; exists k; split; auto; apply in_seq; lia|right; split; auto; exists k; auto].
    + rewrite app_length. unfold chunk_blocks. rewrite map_length, seq_length. cbn in Hl. change (nelem _) with (nelem p). fold c. rewrite Hl. fold c. lia.
  - unfold chunk_blocks. replace (nelem p - 0) with (S (nelem p - 1)) by lia. discriminate.
Qed.
(** ** the actions *)
Lemma allocate_ok p held fl : inv p held fl -> exists b p' fl', allocate p = Ok (b, p') /\ inv p' (b :: held) fl' /\ esize p' = esize p /\
  ((fl <> [] /\ chunks p' = chunks p) \/ (fl = [] /\ chunks p' = length (chunks p) :: chunks p)).
Proof.
  assert (Take : forall p fl, inv p held fl -> fl <> [] -> exists b next fl', hd_free p = Some b /\ mem p (fst b) (snd b) = Link next /\ inv (Pool (esize p) (chunks p) next (mem p)) (b :: held) fl').
  { clear p fl. intros p fl [He Hc Hnc Hch Hn Ha Hl] Hne. destruct fl as [|b fl]; [congruence|]. destruct Hch as (E & nx & En & Hch). exists b, nx, fl. split; auto. split; auto.
    constructor; cbn [esize chunks hd_free mem]; auto.
    - eapply Permutation_NoDup; [apply Permutation_middle|exact Hn].
    - intros a. etransitivity; [|apply Ha]. split; apply Permutation_in; [symmetry|]; apply Permutation_middle.
    - etransitivity; [|exact Hl]. symmetry. apply Permutation_length, Permutation_middle. }
  intros H. unfold allocate. destruct fl as [|f fl].
  - pose proof (i_chain _ _ _ H) as Hh. cbn in Hh. rewrite Hh. destruct (grow_ok p held H) as (p1 & fl1 & E & H1 & Hne & Ec & Ee). rewrite E. cbn [rbind].
    destruct (Take p1 fl1 H1 Hne) as (b & nx & fl' & Eh & Em & H'). rewrite Eh. cbn [of_opt rbind]. rewrite Em. eexists. eexists. exists fl'. split; [reflexivity|]. split; auto.
  - destruct (Take p (f :: fl) H ltac:(discriminate)) as (b & nx & fl' & Eh & Em & H'). rewrite Eh. cbn [rbind]. rewrite Eh. cbn [of_opt rbind]. rewrite Em.
    eexists. eexists. exists fl'. split; [reflexivity|]. split; [exact H'|]. cbn [esize chunks]. split; [reflexivity|]. left. split; [discriminate|reflexivity].
Qed.
Lemma deallocate_ok p held fl k b : inv p held fl -> nth_error held k = Some b -> inv (deallocate p b) (firstn k held ++ skipn (S k) held) (b :: fl).
Proof.
  intros [He Hc Hnc Hch Hn Ha Hl] Hk.
  assert (Pm : Permutation (fl ++ held) ((b :: fl) ++ firstn k held ++ skipn (S k) held)).
  { cbn. rewrite app_assoc. rewrite <- (firstn_skipn k held) at 1; rewrite (skipn_cons_nth held k b Hk). rewrite app_assoc. symmetry. apply Permutation_middle. }
  assert (Hb : is_block p b) by (apply Ha, in_app_iff; right; eapply nth_error_In; eauto).
  constructor; cbn [esize chunks hd_free mem deallocate]; auto.
  - cbn [chain]. split; auto. exists (hd_free p). split; [apply write_word_same|]. apply (chain_ext (mem p)); auto. intros a Ha'. apply write_word_other.
    assert (Hab : is_block p a) by (apply Ha, in_app_iff; auto). assert (a <> b).
    { intros ->. apply (Permutation_NoDup Pm) in Hn. cbn in Hn. inversion Hn as [|? ? Hnin _]; subst. apply Hnin, in_app_iff. auto. }
    destruct (blocks_apart p b a Hb Hab ltac:(congruence)) as [D|D]; [left; auto|right; cbn; lia].
  - eapply Permutation_NoDup; eauto.
  - intros a. etransitivity; [|apply Ha]. split; apply Permutation_in; auto. symmetry; auto.
  - etransitivity; [|exact Hl]. symmetry. apply Permutation_length; auto.
Qed.
Lemma touch_ok p held fl k b o : inv p held fl -> nth_error held k = Some b -> o < esize p -> inv (Pool (esize p) (chunks p) (hd_free p) (write_byte (mem p) (fst b, snd b + o))) held fl.
Proof.
  intros [He Hc Hnc Hch Hn Ha Hl] Hk Ho. assert (Hb : is_block p b) by (apply Ha, in_app_iff; right; eapply nth_error_In; eauto).
  constructor; cbn [esize chunks hd_free mem]; auto. apply (chain_ext (mem p)); auto. intros a Ha'. apply write_byte_other. cbn [fst snd].
  assert (Hab : is_block p a) by (apply Ha, in_app_iff; auto). assert (a <> b).
  { intros ->. apply nth_error_In in Hk. clear -Hn Ha' Hk. induction fl as [|x fl IH]; [destruct Ha'|]. cbn in Hn. inversion Hn; subst. destruct Ha' as [->|Ha']; auto. apply H1, in_app_iff. auto. }
  destruct (blocks_apart p b a Hb Hab ltac:(congruence)) as [D|D]; [left; auto|]. destruct D; lia.
Qed.
Lemma acts_app st l r : acts st (l ++ r) = let! st' := acts st l in acts st' r.
Proof. revert st. induction l as [|a l IH]; intros st; cbn; [reflexivity|]. destruct (act st a); cbn; auto. Qed.
Lemma acts_ok : forall l p held fl, inv p held fl -> exists p' held' fl', acts (p, held) l = Ok (p', held') /\ inv p' held' fl' /\ esize p' = esize p.
Proof.
  induction l as [|a l IH]; intros p held fl H; cbn [acts]; [exists p, held, fl; auto|]. destruct a as [|k|k o]; cbn [act].
  - destruct (allocate_ok p held fl H) as (b & p1 & fl1 & E & H1 & Ee & _). rewrite E. cbn [rbind]. destruct (IH _ _ _ H1) as (p' & held' & fl' & E' & H' & Ee'). exists p', held', fl'. split; auto. split; auto. congruence.
  - destruct (nth_error held k) as [b|] eqn:Hk; cbn [rbind]; [|apply (IH _ _ _ H)]. pose proof (deallocate_ok p held fl k b H Hk) as H1. destruct (IH _ _ _ H1) as (p' & held' & fl' & E' & H' & Ee'). exists p', held', fl'. auto.
  - destruct (nth_error held k) as [b|] eqn:Hk; cbn [rbind]; [|apply (IH _ _ _ H)]. destruct (Nat.ltb_spec o (esize p)); cbn [rbind]; [|apply (IH _ _ _ H)].
    pose proof (touch_ok p held fl k b o H Hk ltac:(auto)) as H1. destruct (IH _ _ _ H1) as (p' & held' & fl' & E' & H' & Ee'). exists p', held', fl'. auto.
Qed.
Lemma new_inv sz : sz <= chunk_size -> inv (new_pool sz) [] [].
Proof.
  intros H. assert (8 <= chunk_size) by (unfold chunk_size; lia). unfold new_pool. constructor; cbn [esize chunks hd_free mem length]; auto.
  - destruct (Nat.ltb_spec sz 8); lia.
  - intros c. cbn. lia.
  - constructor.
  - reflexivity.
  - constructor.
  - intros a. cbn. split; [intros []|intros [[] _]].
Qed.
Lemma run_ok sz l : sz <= chunk_size -> exists p held fl, run sz l = Ok (p, held) /\ inv p held fl /\ esize p = Nat.max 8 sz.
Proof.
  intros H. destruct (acts_ok l (new_pool sz) [] [] (new_inv sz H)) as (p & held & fl & E & I' & Ee). exists p, held, fl. split; auto. split; auto. rewrite Ee. unfold new_pool. cbn [esize]. destruct (Nat.ltb_spec sz 8); lia.
Qed.
Lemma NoDup_nth_ne {T} (l : list T) i j a b : NoDup l -> i <> j -> nth_error l i = Some a -> nth_error l j = Some b -> a <> b.
Proof. intros N D Hi Hj ->. apply D. eapply NoDup_nth_error; eauto; [eapply nth_error_lt; eauto|congruence]. Qed.
Lemma NoDup_tail {T} (l r : list T) : NoDup (l ++ r) -> NoDup r.
Proof. induction l; cbn; auto. inversion 1; auto. Qed.
Lemma held_ok p held fl : inv p held fl -> pairwise_apart (esize p) held /\ forall a, In a held -> within (esize p) chunk_size (chunks p) a /\ exists k, snd a = k * esize p.
Proof.
  intros [He Hc Hnc Hch Hn Ha Hl]. assert (Hb : forall a, In a held -> is_block p a) by (intros a H; apply Ha, in_app_iff; auto). split.
  - intros i j a b D Hi Hj. apply blocks_apart; [apply Hb; eapply nth_error_In; eauto|apply Hb; eapply nth_error_In; eauto|]. apply (NoDup_nth_ne held i j); auto. eapply NoDup_tail; eauto.
  - intros a H. split; [apply block_within; auto; lia|]. destruct (Hb a H) as (_ & k & _ & E). exists k. auto.
Qed.
