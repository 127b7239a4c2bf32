From Coq Require Import Permutation Sorted.
From Verif Require Import Base Channel Establish EstablishSpec.

(** ** Maps *)
Definition keys (m : cmap) : list Z := map fst m.
Definition srt (m : cmap) : Prop := StronglySorted Z.lt (keys m).
Lemma binsert_in z n m m' : binsert z n m = Some m' -> forall kv, In kv m' <-> kv = (z, n) \/ In kv m.
Proof.
  revert m'. induction m as [|[k v] m IH]; intros m' H kv; cbn [binsert] in H.
  - injection H as <-. cbn. intuition congruence.
  - destruct (z <? k); [injection H as <-; cbn; intuition congruence|]. destruct (z =? k); [discriminate|].
    destruct (binsert z n m) as [t|]; [|discriminate]. injection H as <-. cbn. rewrite (IH t eq_refl kv). intuition congruence.
Qed.
Lemma keys_in z m : In z (keys m) <-> exists n, In (z, n) m.
Proof.
  unfold keys. rewrite in_map_iff. split.
  - intros ([a b] & <- & H). exists b. exact H.
  - intros (n & H). exists (z, n). auto.
Qed.
Lemma binsert_srt z n m m' : srt m -> binsert z n m = Some m' -> srt m'.
Proof.
  unfold srt. revert m'. induction m as [|[k v] m IH]; intros m' Hs H; cbn [binsert] in H.
  - injection H as <-. repeat constructor.
  - cbn in Hs. inversion Hs as [|? ? Hs' HF]; subst.
    destruct (Z.ltb_spec z k).
    + injection H as <-. cbn. constructor; [exact Hs|]. constructor; [assumption|]. eapply Forall_impl; [|exact HF]. cbn; intros; lia.
    + destruct (Z.eqb_spec z k); [discriminate|]. destruct (binsert z n m) as [t|] eqn:E; [|discriminate]. injection H as <-.
      cbn. constructor; [apply IH; [exact Hs'|reflexivity]|]. apply Forall_forall. intros x Hx. apply keys_in in Hx. destruct Hx as (n' & Hx).
      apply (binsert_in _ _ _ _ E) in Hx. destruct Hx as [Hx|Hx]; [injection Hx as -> _; lia|].
      rewrite Forall_forall in HF. apply HF, keys_in. exists n'. exact Hx.
Qed.
Lemma binsert_none z n m : binsert z n m = None -> In z (keys m).
Proof.
  induction m as [|[k v] m IH]; cbn [binsert]; [discriminate|]. destruct (z <? k); [discriminate|].
  destruct (Z.eqb_spec z k); [left; cbn; auto|]. destruct (binsert z n m); [discriminate|]. intros _. right. apply IH. reflexivity.
Qed.
Lemma srt_nodup m : srt m -> NoDup (keys m).
Proof.
  unfold srt. induction (keys m) as [|k l IH]; intros H; [constructor|]. inversion H as [|? ? H1 H2]; subst. constructor; [|apply IH, H1].
  intros Hk. rewrite Forall_forall in H2. specialize (H2 _ Hk). lia.
Qed.
Lemma key_fun z n n' m : NoDup (keys m) -> In (z, n) m -> In (z, n') m -> n = n'.
Proof.
  induction m as [|[k v] m IH]; cbn; intros Hn H H'; [contradiction|]. inversion Hn as [|? ? Hk Hn']; subst.
  destruct H as [H|H], H' as [H'|H']; try congruence; [|..|eauto].
  - exfalso. apply Hk. injection H as -> _. apply keys_in. eauto.
  - exfalso. apply Hk. injection H' as -> _. apply keys_in. eauto.
Qed.

(** ** What a process holds *)
Definition conns_of (f : phase) : cmap :=
  match f with
  | Loop _ m | Dial _ _ m _ | Hear _ m _ | Up m => m
  | Chans t ch => ch ++ t
  | Wait z n t ch => ch ++ (z, n) :: t
  | Ready ch => ch
  | Down | Dead _ => []
  end.
Definition chs_of (f : phase) : cmap := match f with Chans _ ch | Wait _ _ _ ch | Ready ch => ch | _ => [] end.
Lemma chs_conns f kv : In kv (chs_of f) -> In kv (conns_of f).
Proof. destruct f; cbn; try contradiction; auto; intros; apply in_or_app; auto. Qed.
Definition dead (f : phase) : Prop := match f with Dead _ => True | _ => False end.

(** ** Safety: any configuration, any fault *)
Section Safety.
  Context (w : world) (Hids : distinct_ids w) (Hun : unsigned_conf w) (Hout : w_outsiders w = false).
  Notation At s p := (n_at s p). Notation C s n := (n_conn s n).
  Definition todo_of (f : phase) : list entry := match f with Loop t _ | Dial _ t _ _ | Hear t _ _ => t | _ => [] end.

  Record sinv (s : net) : Prop := {
    s_ids : forall p, At s p <> Down -> In p (w_ids w);
    s_ends : forall n, (n < n_next s)%nat -> In (c_client (C s n)) (w_ids w) /\ In (c_server (C s n)) (w_ids w);
    s_hello : forall n z, (n < n_next s)%nat -> c_hello (C s n) = Some z -> z = c_client (C s n);
    s_acc : forall n v, (n < n_next s)%nat -> c_acceptor (C s n) = Some v -> v = u32 (c_server (C s n)) /\
              (dead (At s (c_server (C s n))) \/ In (c_client (C s n), n) (chs_of (At s (c_server (C s n)))));
    s_map : forall p z n, In (z, n) (conns_of (At s p)) -> (n < n_next s)%nat /\
              ((c_client (C s n) = p /\ 0 <= z < p) \/ (c_server (C s n) = p /\ c_client (C s n) = z));
    s_dial : forall p e t m n, At s p = Dial e t m n -> (n < n_next s)%nat /\ c_client (C s n) = p /\ 0 <= e_id e < p;
    s_hear : forall p t m n, At s p = Hear t m n -> (n < n_next s)%nat /\ c_server (C s n) = p;
    s_keys : forall p, srt (conns_of (At s p));
    s_chs : forall p z n, In (z, n) (chs_of (At s p)) -> (z < p /\ c_acceptor (C s n) = Some (u32 z)) \/ (p <= z /\ c_server (C s n) = p);
    s_todo : forall p e, In e (todo_of (At s p)) -> 0 <= e_id e
  }.

  Lemma sinv0 : sinv net0.
  Proof.
    constructor; cbn; intros; try contradiction; try lia; try discriminate; try congruence; try constructor.
  Qed.

  Lemma upd_same {A} (f : Z -> A) p a : upd f p a p = a. Proof. unfold upd. rewrite Z.eqb_refl. reflexivity. Qed.
  Lemma upd_other {A} (f : Z -> A) p a q : q <> p -> upd f p a q = f q. Proof. intros H. unfold upd. destruct (Z.eqb_spec q p); congruence. Qed.

  Lemma sinv_step s p f c' nx' : sinv s -> In p (w_ids w) -> ~ dead (At s p) -> (n_next s <= nx')%nat ->
    (forall n, (n < n_next s)%nat -> c_client (c' n) = c_client (C s n) /\ c_server (c' n) = c_server (C s n)) ->
    (forall n z, (n < nx')%nat -> c_hello (c' n) = Some z -> z = c_client (c' n)) ->
    (forall n, (n_next s <= n < nx')%nat -> In (c_client (c' n)) (w_ids w) /\ In (c_server (c' n)) (w_ids w) /\ c_acceptor (c' n) = None) ->
    (forall n, (n < n_next s)%nat -> c_acceptor (c' n) = c_acceptor (C s n) \/
       (c_acceptor (c' n) = Some (u32 p) /\ c_server (C s n) = p /\ In (c_client (C s n), n) (chs_of f))) ->
    (dead f \/ incl (chs_of (At s p)) (chs_of f)) ->
    (forall z n, In (z, n) (conns_of f) -> (n < nx')%nat /\ ((c_client (c' n) = p /\ 0 <= z < p) \/ (c_server (c' n) = p /\ c_client (c' n) = z))) ->
    (forall e t m n, f = Dial e t m n -> (n < nx')%nat /\ c_client (c' n) = p /\ 0 <= e_id e < p) ->
    (forall t m n, f = Hear t m n -> (n < nx')%nat /\ c_server (c' n) = p) ->
    srt (conns_of f) ->
    (forall z n, In (z, n) (chs_of f) -> (z < p /\ c_acceptor (c' n) = Some (u32 z)) \/ (p <= z /\ c_server (c' n) = p)) ->
    (forall e, In e (todo_of f) -> 0 <= e_id e) ->
    sinv (Net (upd (n_at s) p f) c' nx').
  Proof.
    intros I Hp Hnd Hnx Hce Hhe Hnew Hac Hch Hmap Hdial Hhear Hkeys Hchs Htodo. constructor; cbn [n_at n_conn n_next].
    - intros q Hq. destruct (Z.eq_dec q p) as [->|Hqp]; [exact Hp|]. rewrite upd_other in Hq by exact Hqp. apply (s_ids _ I), Hq.
    - intros n Hn. destruct (Nat.lt_ge_cases n (n_next s)) as [Hl|Hl].
      + destruct (Hce n Hl) as [-> ->]. apply (s_ends _ I), Hl.
      + destruct (Hnew n ltac:(lia)) as (H1 & H2 & _). auto.
    - exact Hhe.
    - intros n v Hn Hv. destruct (Nat.lt_ge_cases n (n_next s)) as [Hl|Hl].
      2:{ destruct (Hnew n ltac:(lia)) as (_ & _ & H). congruence. }
      destruct (Hce n Hl) as [E1 E2]. rewrite E1, E2. destruct (Hac n Hl) as [Ha|(Ha & Hs & Hi)].
      + rewrite Ha in Hv. destruct (s_acc _ I n v Hl Hv) as [-> H]. split; [reflexivity|].
        destruct (Z.eq_dec (c_server (C s n)) p) as [Es|Hne]; [rewrite Es, upd_same|rewrite upd_other by exact Hne; exact H].
        rewrite Es in H. destruct Hch as [Hd|Hincl]; [left; exact Hd|]. destruct H as [H|H]; [|right; apply Hincl, H].
        contradiction.
      + rewrite Hs, upd_same. split; [congruence|]. right. exact Hi.
    - intros q z n H. destruct (Z.eq_dec q p) as [->|Hqp]; [rewrite upd_same in H; apply Hmap, H|].
      rewrite upd_other in H by exact Hqp. destruct (s_map _ I q z n H) as [H1 H2]. split; [lia|].
      destruct (Hce n H1) as [-> ->]. exact H2.
    - intros q e t m n H. destruct (Z.eq_dec q p) as [->|Hqp]; [rewrite upd_same in H; eapply Hdial, H|].
      rewrite upd_other in H by exact Hqp. destruct (s_dial _ I q e t m n H) as [H1 H2]. split; [lia|].
      destruct (Hce n H1) as [-> _]. exact H2.
    - intros q t m n H. destruct (Z.eq_dec q p) as [->|Hqp]; [rewrite upd_same in H; eapply Hhear, H|].
      rewrite upd_other in H by exact Hqp. destruct (s_hear _ I q t m n H) as [H1 H2]. split; [lia|].
      destruct (Hce n H1) as [_ ->]. exact H2.
    - intros q. destruct (Z.eq_dec q p) as [->|Hqp]; [rewrite upd_same; exact Hkeys|rewrite upd_other by exact Hqp; apply (s_keys _ I)].
    - intros q z n H. destruct (Z.eq_dec q p) as [->|Hqp]; [rewrite upd_same in H; apply Hchs, H|].
      rewrite upd_other in H by exact Hqp. pose proof (s_map _ I q z n (chs_conns _ _ H)) as [Hn _].
      destruct (Hce n Hn) as [E1 E2]. destruct (s_chs _ I q z n H) as [[H1 H2]|[H1 H2]].
      + left. split; [exact H1|]. destruct (Hac n Hn) as [->|(-> & Hs & _)]; [exact H2|].
        destruct (s_acc _ I n _ Hn H2) as [-> _]. rewrite Hs. reflexivity.
      + right. split; [exact H1|]. rewrite E2. exact H2.
    - intros q e H. destruct (Z.eq_dec q p) as [->|Hqp]; [rewrite upd_same in H; apply Htodo, H|].
      rewrite upd_other in H by exact Hqp. apply (s_todo _ I q), H.
  Qed.

  Lemma updn_same {A} (f : nat -> A) k a : updn f k a k = a. Proof. unfold updn. rewrite Nat.eqb_refl. reflexivity. Qed.
  Lemma updn_other {A} (f : nat -> A) k a l : l <> k -> updn f k a l = f l. Proof. intros H. unfold updn. destruct (Nat.eqb_spec l k); congruence. Qed.

  (** A step that does not touch connections. *)
  Lemma sinv_goto s p f : sinv s -> In p (w_ids w) -> ~ dead (At s p) ->
    (dead f \/ incl (chs_of (At s p)) (chs_of f)) ->
    (forall z n, In (z, n) (conns_of f) -> (n < n_next s)%nat /\ ((c_client (C s n) = p /\ 0 <= z < p) \/ (c_server (C s n) = p /\ c_client (C s n) = z))) ->
    (forall e t m n, f <> Dial e t m n) -> (forall t m n, f <> Hear t m n) ->
    srt (conns_of f) ->
    (forall z n, In (z, n) (chs_of f) -> (z < p /\ c_acceptor (C s n) = Some (u32 z)) \/ (p <= z /\ c_server (C s n) = p)) ->
    (forall e, In e (todo_of f) -> 0 <= e_id e) ->
    sinv (goto s p f).
  Proof.
    intros I Hp Hd Hch Hmap Hdial Hhear Hk Hchs Htodo. apply sinv_step; auto.
    - apply (s_hello _ I).
    - intros. lia.
    - intros e t m n H. destruct (Hdial _ _ _ _ H).
    - intros t m n H. destruct (Hhear _ _ _ H).
  Qed.
  (** A step that changes connection n only. *)
  Lemma sinv_goto_set s p f n r : sinv s -> In p (w_ids w) -> ~ dead (At s p) -> (n < n_next s)%nat ->
    c_client r = c_client (C s n) -> c_server r = c_server (C s n) ->
    (forall z, c_hello r = Some z -> z = c_client r) ->
    (c_acceptor r = c_acceptor (C s n) \/ (c_acceptor r = Some (u32 p) /\ c_server (C s n) = p /\ In (c_client (C s n), n) (chs_of f))) ->
    (dead f \/ incl (chs_of (At s p)) (chs_of f)) ->
    (forall z k, In (z, k) (conns_of f) -> (k < n_next s)%nat /\ ((c_client (C s k) = p /\ 0 <= z < p) \/ (c_server (C s k) = p /\ c_client (C s k) = z))) ->
    (forall e t m k, f <> Dial e t m k) -> (forall t m k, f = Hear t m k -> (k < n_next s)%nat /\ c_server (C s k) = p) ->
    srt (conns_of f) ->
    (forall z k, In (z, k) (chs_of f) -> (z < p /\ c_acceptor (updn (n_conn s) n r k) = Some (u32 z)) \/ (p <= z /\ c_server (C s k) = p)) ->
    (forall e, In e (todo_of f) -> 0 <= e_id e) ->
    sinv (goto_set s p f n r).
  Proof.
    intros I Hp Hd Hn E1 E2 Hhe Hac Hch Hmap Hdial Hhear Hk Hchs Htodo.
    assert (EC : forall k, c_client (updn (n_conn s) n r k) = c_client (C s k)).
    { intros k. destruct (Nat.eq_dec k n) as [->|Hkn]; [rewrite updn_same; exact E1|rewrite updn_other by exact Hkn; reflexivity]. }
    assert (ES : forall k, c_server (updn (n_conn s) n r k) = c_server (C s k)).
    { intros k. destruct (Nat.eq_dec k n) as [->|Hkn]; [rewrite updn_same; exact E2|rewrite updn_other by exact Hkn; reflexivity]. }
    apply sinv_step; auto.
    - intros k z Hk'. destruct (Nat.eq_dec k n) as [->|Hkn]; [rewrite updn_same; apply Hhe|rewrite updn_other by exact Hkn; apply (s_hello _ I), Hk'].
    - intros k H. lia.
    - intros k Hk'. destruct (Nat.eq_dec k n) as [->|Hkn]; [rewrite updn_same; exact Hac|rewrite updn_other by exact Hkn; auto].
    - intros z k H. rewrite EC, ES. apply Hmap, H.
    - intros e t m k H. destruct (Hdial _ _ _ _ H).
    - intros t m k H. rewrite ES. apply (Hhear t m), H.
    - intros z k H. rewrite ES. apply Hchs, H.
  Qed.
  Lemma keep_chs s p z k n r : sinv s -> (In (z, k) (chs_of (At s p))) -> (n < n_next s)%nat ->
    (c_acceptor r = c_acceptor (C s n) \/ (c_acceptor r = Some (u32 (c_server (C s n))))) ->
    (z < p /\ c_acceptor (updn (n_conn s) n r k) = Some (u32 z)) \/ (p <= z /\ c_server (C s k) = p).
  Proof.
    intros I H Hn Hr. destruct (s_chs _ I p z k H) as [[H1 H2]|[H1 H2]]; [left|right; auto]. split; [exact H1|].
    destruct (Nat.eq_dec k n) as [->|Hkn]; [rewrite updn_same|rewrite updn_other by exact Hkn; exact H2].
    destruct Hr as [-> | ->]; [exact H2|]. destruct (s_acc _ I n _ Hn H2) as [-> _]. reflexivity.
  Qed.

  Ltac at_of I H := let A := fresh "MAP" in let B := fresh "KEYS" in let D := fresh "CHS" in let T := fresh "TODO" in let N := fresh "ND" in
    match type of H with At ?s ?p = _ =>
      pose proof (s_map _ I p) as A; pose proof (s_keys _ I p) as B; pose proof (s_chs _ I p) as D; pose proof (s_todo _ I p) as T;
      assert (N : ~ dead (At s p)) by (rewrite H; intros []);
      rewrite H in A, B, D, T; cbn [conns_of chs_of todo_of] in A, B, D, T
    end.
  Ltac triv := cbn [conns_of chs_of todo_of]; try (left; exact I); try (right; intros ? []); try (intros; contradiction); try (intros; discriminate); try (constructor; fail); try assumption.

  Lemma dead_ok s p e : sinv s -> In p (w_ids w) -> ~ dead (At s p) -> sinv (goto s p (Dead e)).
  Proof. intros I Hp Hd. apply sinv_goto; auto; cbn; try (intros; contradiction); try discriminate; [left; exact Logic.I|constructor]. Qed.

  Lemma sinv_pres s s' : sinv s -> nstep w s s' -> sinv s'.
  Proof using Hids Hun Hout.
    intros I H. destruct H as [p s Hp E|p s e t m Hp E Ee|p s e t m q Hp E Ee Hh Hl Ht|p s e t m q Hp E Ee Hh Hl Ht|p s e t m n r Hp E Er Hz|
      p s e t m n r Hp E Ee Hn Er Hs Ha|p s t m n z Hp E Hz|p s m Hp E|p s m Hp E|p s z n t ch r Hp E Hz Er|p s z n t ch v Hp E Hv|
      p s z n t ch r v Hp E Hz Er Hv|p s ch Hp E|p s Hp Hf Ho|p z s h o Hp Hz Ho Hl].
    - (* start *) at_of I E. destruct (check_config _ _); [|apply dead_ok; auto].
      apply sinv_goto; auto; cbn [conns_of chs_of todo_of]; try (intros; contradiction); try discriminate.
      + right. rewrite E. intros ? [].
      + intros e He. apply (Hun p e He).
    - at_of I E. apply sinv_goto; auto; cbn [conns_of chs_of todo_of]; try (intros; contradiction); try discriminate.
      + right. rewrite E. intros ? [].
      + intros x Hx. apply TODO. right. exact Hx.
    - (* dial *) at_of I E. assert (Hq : In q (w_ids w)) by (apply (s_ids _ I); intros Hq; rewrite Hq in Hl; discriminate).
      apply sinv_step; auto; cbn [conns_of chs_of todo_of]; try discriminate; try (intros; contradiction).
      + intros n Hn. rewrite updn_other by lia. auto.
      + intros n z Hn. destruct (Nat.eq_dec n (n_next s)) as [->|Hne]; [rewrite updn_same; discriminate|rewrite updn_other by exact Hne; apply (s_hello _ I); lia].
      + intros n Hn. replace n with (n_next s) by lia. rewrite updn_same. auto.
      + intros n Hn. rewrite updn_other by lia. auto.
      + right. intros ? Hx. rewrite E in Hx. destruct Hx.
      + intros z n Hin. destruct (MAP z n Hin) as [H1 H2]. rewrite updn_other by lia. split; [lia|exact H2].
      + intros e0 t0 m0 n0 HH. injection HH as <- <- <- <-. rewrite updn_same. split; [lia|]. split; [reflexivity|]. split; [apply TODO; left; reflexivity|exact Ee].
      + intros x Hx. apply TODO. right. exact Hx.
    - at_of I E. apply dead_ok; auto.
    - (* greet *) at_of I E. destruct (s_dial _ I _ _ _ _ _ E) as (Hn & Hc & He0). subst r.
      assert (Hlt : p <? 2 ^ 32 = true) by (apply Z.ltb_lt; apply Hids, Hp). rewrite Hlt.
      unfold inserted. destruct (binsert (e_id e) n m) as [m'|] eqn:Eb.
      + apply sinv_goto_set; auto; cbn [conns_of chs_of todo_of c_client c_server c_hello c_acceptor]; try discriminate; try (intros; contradiction).
        * intros z Hz'. congruence.
        * right. intros ? Hx. rewrite E in Hx. destruct Hx.
        * intros z k Hin. apply (binsert_in _ _ _ _ Eb) in Hin. destruct Hin as [HH|Hin]; [injection HH as -> ->; split; [exact Hn|]; left; auto|apply MAP, Hin].
        * eapply binsert_srt; eassumption.
      + apply sinv_goto_set; auto; cbn [conns_of chs_of todo_of c_client c_server c_hello c_acceptor]; try discriminate; try (intros; contradiction).
        * intros z Hz'. congruence.
        * left. exact Logic.I.
        * constructor.
    - (* accept *) at_of I E. subst r. apply sinv_goto_set; auto; cbn [conns_of chs_of todo_of c_client c_server c_hello c_acceptor]; try discriminate; try (intros; contradiction).
      + intros ?; apply (s_hello _ I); exact Hn.
      + right. intros ? Hx. rewrite E in Hx. destruct Hx.
      + intros t0 m0 k HH. injection HH as <- <- <-. auto.
      + intros x Hx. apply TODO. right. exact Hx.
    - (* hear *) at_of I E. destruct (s_hear _ I _ _ _ _ E) as [Hn Hs].
      unfold inserted. destruct (binsert z n m) as [m'|] eqn:Eb; [|apply dead_ok; auto].
      apply sinv_goto; auto; cbn [conns_of chs_of todo_of]; try discriminate; try (intros; contradiction).
      + right. intros ? Hx. rewrite E in Hx. destruct Hx.
      + intros y k Hin. apply (binsert_in _ _ _ _ Eb) in Hin. destruct Hin as [HH|Hin]; [injection HH as -> ->; split; [exact Hn|]; right; split; [exact Hs|symmetry; apply (s_hello _ I _ _ Hn Hz)]|apply MAP, Hin].
      + eapply binsert_srt; eassumption.
    - at_of I E. apply sinv_goto; auto; cbn [conns_of chs_of todo_of]; try discriminate; try (intros; contradiction); auto. right. intros ? Hx. rewrite E in Hx. destruct Hx.
    - at_of I E. destruct m as [|kv m]; [apply dead_ok; auto|].
      apply sinv_goto; auto; cbn [conns_of chs_of todo_of app]; try discriminate; try (intros; contradiction); auto. right. intros ? Hx. rewrite E in Hx. destruct Hx.
    - (* open *) at_of I E. assert (Hn : (n < n_next s)%nat) by (apply (MAP z n), in_or_app; right; left; reflexivity). subst r.
      apply sinv_goto_set; auto; cbn [conns_of chs_of todo_of c_client c_server c_hello c_acceptor]; try discriminate; try (intros; contradiction); auto.
      + intros ?; apply (s_hello _ I); exact Hn.
      + right. rewrite E. intros ? Hx. exact Hx.
      + intros y k Hin. apply (keep_chs s p y k n); [exact I|rewrite E; exact Hin|exact Hn|left; reflexivity].
    - (* reply *) at_of I E. destruct (Z.eqb_spec v (u32 z)) as [->|Hne]; [|apply dead_ok; auto].
      assert (EC : (ch ++ [(z, n)]) ++ t = ch ++ (z, n) :: t) by (rewrite <- app_assoc; reflexivity).
      assert (Hin : In (z, n) (ch ++ (z, n) :: t)) by (apply in_or_app; right; left; reflexivity).
      apply sinv_goto; auto; cbn [conns_of chs_of todo_of]; rewrite ?EC; try discriminate; try (intros; contradiction); auto.
      + right. rewrite E. intros x Hx. apply in_or_app. left. exact Hx.
      + intros y k Hy. apply in_app_or in Hy. destruct Hy as [Hy|[Hy|[]]]; [apply CHS, Hy|]. injection Hy as <- <-.
        destruct (MAP z n Hin) as [Hn [[Hc Hz]|[Hs Hc]]]; [left; split; [lia|exact Hv]|].
        destruct (s_acc _ I n _ Hn Hv) as [Eu _]. rewrite Hs in Eu.
        assert (z = p). { pose proof (s_ends _ I n Hn) as [Hz _]. rewrite Hc in Hz. pose proof (proj2 Hids p Hp). pose proof (proj2 Hids z Hz). unfold u32 in Eu. rewrite !Z.mod_small in Eu by lia. exact Eu. }
        right. split; [lia|exact Hs].
    - (* serve *) at_of I E. assert (Hin : In (z, n) (ch ++ (z, n) :: t)) by (apply in_or_app; right; left; reflexivity).
      destruct (MAP z n Hin) as [Hn Hcase]. subst r. destruct (Z.eqb_spec v (u32 z)) as [->|Hne]; [|apply dead_ok; auto].
      assert (Hs : c_server (C s n) = p /\ c_client (C s n) = z) by (destruct Hcase as [[_ ?]|?]; [lia|assumption]).
      assert (EC : (ch ++ [(z, n)]) ++ t = ch ++ (z, n) :: t) by (rewrite <- app_assoc; reflexivity).
      apply sinv_goto_set; auto; cbn [conns_of chs_of todo_of c_client c_server c_hello c_acceptor]; rewrite ?EC; try discriminate; try (intros; contradiction); auto.
      + intros ?; apply (s_hello _ I); exact Hn.
      + right. split; [reflexivity|]. split; [apply Hs|]. rewrite (proj2 Hs). apply in_or_app. right. left. reflexivity.
      + right. rewrite E. intros x Hx. apply in_or_app. left. exact Hx.
      + intros y k Hy. apply in_app_or in Hy. destruct Hy as [Hy|[Hy|[]]].
        * apply (keep_chs s p y k n); [exact I|rewrite E; exact Hy|exact Hn|right; rewrite (proj1 Hs); reflexivity].
        * injection Hy as <- <-. right. split; [lia|apply Hs].
    - at_of I E. rewrite app_nil_r in *. apply sinv_goto; auto; cbn [conns_of chs_of todo_of]; try discriminate; try (intros; contradiction); auto.
      right. rewrite E. intros x Hx. exact Hx.
    - apply dead_ok; auto. destruct (n_at s p); cbn in *; try discriminate; auto.
    - congruence.
  Qed.

  Lemma sinv_reach k s : nsteps w k net0 s -> sinv s.
  Proof using Hids Hun Hout.
    intros H. remember net0 as s0. induction H as [s|k s s' s'' H IH Hs]; subst; [apply sinv0|]. eapply sinv_pres; [apply IH; reflexivity|exact Hs].
  Qed.

  Lemma u32_id z : 0 <= z < 2 ^ 32 -> u32 z = z. Proof. intros. unfold u32. apply Z.mod_small. assumption. Qed.

  Theorem ready_between k s p ch q n : nsteps w k net0 s -> In p (w_ids w) -> n_at s p = Ready ch -> In (q, n) ch -> q <> p -> between s n p q.
  Proof using Hids Hun Hout.
    intros HR Hp E Hin Hqp. pose proof (sinv_reach _ _ HR) as I.
    pose proof (s_map _ I p q n) as MAP. rewrite E in MAP. destruct (MAP Hin) as [Hn Hcase].
    pose proof (s_chs _ I p q n) as CHS. rewrite E in CHS. destruct (CHS Hin) as [[H1 H2]|[H1 H2]].
    - destruct (s_acc _ I n _ Hn H2) as [Eu _]. pose proof (s_ends _ I n Hn) as [G1 G2]. pose proof (proj2 Hids p Hp). pose proof (proj2 Hids _ G2).
      destruct Hcase as [[Hc Hz]|[Hs Hc]].
      + left. split; [exact Hc|]. rewrite !u32_id in Eu by lia. auto.
      + rewrite Hs, Hc in *. pose proof (proj2 Hids _ G1). rewrite !u32_id in Eu by lia. congruence.
    - right. destruct Hcase as [[Hc Hz]|[Hs Hc]]; [lia|auto].
  Qed.

  Theorem ready_agree k s p q ch ch' n n' : nsteps w k net0 s -> In p (w_ids w) -> In q (w_ids w) -> p <> q ->
    n_at s p = Ready ch -> n_at s q = Ready ch' -> In (q, n) ch -> In (p, n') ch' -> n = n'.
  Proof using Hids Hun Hout.
    intros HR. pose proof (sinv_reach _ _ HR) as I.
    assert (W : forall p q ch ch' n n', In p (w_ids w) -> In q (w_ids w) -> q < p ->
      n_at s p = Ready ch -> n_at s q = Ready ch' -> In (q, n) ch -> In (p, n') ch' -> n = n').
    { clear p q ch ch' n n'. intros p q ch ch' n n' Hp Hq Hlt E E' H H'.
      pose proof (s_map _ I p q n) as MAP. rewrite E in MAP. destruct (MAP H) as [Hn Hcase].
      pose proof (s_chs _ I p q n) as CHS. rewrite E in CHS. destruct (CHS H) as [[H1 H2]|[H1 H2]]; [|lia].
      destruct (s_acc _ I n _ Hn H2) as [Eu HD].
      destruct (ready_between k s p ch q n HR Hp E H ltac:(lia)) as [[Bc Bs]|[Bc Bs]].
      - rewrite Bc, Bs, E' in HD. destruct HD as [[]|HD]. cbn [chs_of] in HD.
        pose proof (s_keys _ I q) as K. rewrite E' in K. apply srt_nodup in K. eapply key_fun; eassumption.
      - exfalso. rewrite Bs in Eu. pose proof (proj2 Hids p Hp). pose proof (proj2 Hids q Hq). rewrite !u32_id in Eu by lia. lia. }
    intros Hp Hq Hpq E E' H H'. destruct (Z.lt_total p q) as [L|[L|L]]; [symmetry; apply (W q p ch' ch n' n); assumption|congruence|apply (W p q ch ch' n n'); assumption].
  Qed.
End Safety.
