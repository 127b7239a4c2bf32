(** Set-up always completes, whatever the order of the configurations and the schedule. *)
From Coq Require Import Permutation Sorted.
From Verif Require Import Base Channel ChannelProofs Establish EstablishSpec EstablishProofs.

(** ** Termination: every step uses up some of the work *)
Definition weight (len : nat) (f : phase) : nat :=
  match f with
  | Down => 4 * len + 5
  | Loop t m => 4 * length t + 2 * length m + 4
  | Dial _ t m _ | Hear t m _ => 4 * length t + 2 * length m + 7
  | Up m => 2 * length m + 3
  | Chans t _ => 2 * length t + 2
  | Wait _ _ t _ => 2 * length t + 3
  | Ready _ => 1
  | Dead _ => 0
  end.
Definition total (w : world) (s : net) : nat := list_sum (map (fun p => weight (length (w_conf w p)) (n_at s p)) (w_ids w)).
Lemma binsert_length z n m m' : binsert z n m = Some m' -> length m' = S (length m).
Proof.
  revert m'. induction m as [|[k v] m IH]; intros m' H; cbn [binsert] in H; [injection H as <-; reflexivity|].
  destruct (z <? k); [injection H as <-; reflexivity|]. destruct (z =? k); [discriminate|].
  destruct (binsert z n m) as [t|]; [|discriminate]. injection H as <-. cbn. rewrite (IH t eq_refl). reflexivity.
Qed.
Lemma inserted_weight len z n t m : (weight len (inserted z n m (Loop t)) < 4 * length t + 2 * length m + 7)%nat.
Proof. unfold inserted. destruct (binsert z n m) eqn:E; cbn [weight]; [apply binsert_length in E|]; lia. Qed.
Lemma total_upd w s p f c x : NoDup (w_ids w) -> In p (w_ids w) -> (weight (length (w_conf w p)) f < weight (length (w_conf w p)) (n_at s p))%nat ->
  (total w (Net (upd (n_at s) p f) c x) < total w s)%nat.
Proof.
  unfold total. cbn [n_at]. induction (w_ids w) as [|q l IH]; intros Hn Hp Hw; [contradiction|]. inversion Hn as [|? ? Hq Hn']; subst. cbn [map list_sum fold_right].
  destruct Hp as [->|Hp].
  - rewrite upd_same. assert (E : map (fun q => weight (length (w_conf w q)) (upd (n_at s) p f q)) l = map (fun q => weight (length (w_conf w q)) (n_at s q)) l).
    { apply map_ext_in. intros q Hin. rewrite upd_other; [reflexivity|]. intros ->. contradiction. }
    rewrite E. fold (list_sum (map (fun q => weight (length (w_conf w q)) (n_at s q)) l)). lia.
  - specialize (IH Hn' Hp Hw). rewrite upd_other; [|intros ->; contradiction]. unfold list_sum in *. lia.
Qed.
Lemma step_total w s s' : NoDup (w_ids w) -> w_outsiders w = false -> nstep w s s' -> (total w s' < total w s)%nat.
Proof.
  intros Hn Ho H. destruct H as [p s Hp E|p s e t m Hp E Ee|p s e t m q Hp E Ee Hh Hl Ht|p s e t m q Hp E Ee Hh Hl Ht|p s e t m n r Hp E Er Hz|
      p s e t m n r Hp E Ee Hk Er Hs Ha|p s t m n z Hp E Hz|p s m Hp E|p s m Hp E|p s z n t ch r Hp E Hz Er|p s z n t ch v Hp E Hv|
      p s z n t ch r v Hp E Hz Er Hv|p s ch Hp E|p s Hp Hf Hov|p z s h o Hp Hz Hos Hl]; [..|congruence].
  all: try (destruct (v =? u32 z)).
  all: unfold goto, goto_set; apply total_upd; try assumption; try rewrite E.
  - destruct (check_config _ _); cbn [weight length]; lia.
  - cbn [weight length]; lia.
  - cbn [weight length]; lia.
  - cbn [weight length]; lia.
  - destruct (p <? 2 ^ 32); [|cbn [weight]; lia]. apply inserted_weight.
  - cbn [weight length]; lia.
  - apply inserted_weight.
  - cbn [weight length]; lia.
  - destruct m; cbn [weight length]; lia.
  - cbn [weight length]; lia.
  - cbn [weight length]; lia.
  - cbn [weight length]; lia.
  - cbn [weight length]; lia.
  - cbn [weight length]; lia.
  - cbn [weight length]; lia.
  - destruct (n_at s p); cbn in Hov; try discriminate; cbn [weight]; lia.
Qed.
Lemma steps_total w k s s' : NoDup (w_ids w) -> w_outsiders w = false -> nsteps w k s s' -> (k + total w s' <= total w s)%nat.
Proof.
  intros Hn Ho H. induction H as [s|k s s' s'' H IH Hs]; [lia|]. pose proof (step_total w s' s'' Hn Ho Hs). lia.
Qed.

Section Live.
  Context (w : world) (HC : configured w) (Hout : w_outsiders w = false) (Hfault : w_faults w = false).
  Notation ids := (w_ids w).
  Notation At s p := (n_at s p). Notation C s n := (n_conn s n).
  Definition todo_at (s : net) (p : Z) : list entry := match At s p with Down => w_conf w p | f => todo_of f end.
  Definition hearing (f : phase) : nat := match f with Hear _ _ _ => 1 | _ => 0 end.
  Definition above (p : Z) (l : list Z) : nat := length (filter (Z.ltb p) l).

  (** What a process's phase says, given the connections. *)
  Record lloc (c : nat -> crec) (nx : nat) (p : Z) (td : list entry) (f : phase) : Prop := {
    k_map : forall z n, In (z, n) (conns_of f) -> (n < nx)%nat /\
              ((c_client (c n) = p /\ c_server (c n) = z) \/ (c_client (c n) = z /\ c_server (c n) = p /\ c_accepted (c n) = true));
    k_dial : forall e t m n, f = Dial e t m n -> (n < nx)%nat /\ c_client (c n) = p /\ c_server (c n) = e_id e /\ ~ In (e_id e) (keys m);
    k_hear : forall t m n, f = Hear t m n -> (n < nx)%nat /\ c_server (c n) = p /\ c_accepted (c n) = true /\ forall z, ~ In (z, n) m;
    k_keys : srt (conns_of f);
    k_low : forall b, In b ids -> b < p -> In b (map e_id td) \/ In b (keys (conns_of f)) \/ exists e t m n, f = Dial e t m n /\ e_id e = b;
    k_cnt : (above p (keys (conns_of f)) + hearing f + above p (map e_id td) = above p ids)%nat;
    k_todo : NoDup (map e_id td) /\ incl td (w_conf w p);
    k_wait : forall z n t ch, f = Wait z n t ch -> z < p
  }.
  Record linv (s : net) : Prop := {
    l_ids : forall p, At s p <> Down -> In p ids;
    l_alive : forall p, ~ dead (At s p);
    l_ends : forall n, (n < n_next s)%nat -> In (c_client (C s n)) ids /\ In (c_server (C s n)) ids /\ c_server (C s n) < c_client (C s n) /\
               At s (c_client (C s n)) <> Down /\ At s (c_server (C s n)) <> Down;
    l_uniq : forall n k, (n < n_next s)%nat -> (k < n_next s)%nat -> c_client (C s n) = c_client (C s k) -> c_server (C s n) = c_server (C s k) -> n = k;
    l_hello : forall n z, (n < n_next s)%nat -> c_hello (C s n) = Some z -> z = c_client (C s n);
    l_silent : forall n, (n < n_next s)%nat -> c_hello (C s n) = None -> exists e t m, At s (c_client (C s n)) = Dial e t m n;
    l_fresh : forall n, (n < n_next s)%nat -> ~ In (c_server (C s n)) (map e_id (todo_at s (c_client (C s n))));
    l_acc : forall n, (n < n_next s)%nat -> c_accepted (C s n) = true ->
              In (c_client (C s n), n) (conns_of (At s (c_server (C s n)))) \/ exists t m, At s (c_server (C s n)) = Hear t m n;
    l_opened : forall n v, (n < n_next s)%nat -> c_opener (C s n) = Some v -> v = u32 (c_client (C s n));
    l_unopened : forall n, (n < n_next s)%nat -> c_opener (C s n) = None ->
              ~ In (c_server (C s n), n) (chs_of (At s (c_client (C s n)))) /\ forall z t ch, At s (c_client (C s n)) <> Wait z n t ch;
    l_served : forall n v, (n < n_next s)%nat -> c_acceptor (C s n) = Some v -> v = u32 (c_server (C s n));
    l_unserved : forall n, (n < n_next s)%nat -> c_acceptor (C s n) = None -> ~ In (c_client (C s n), n) (chs_of (At s (c_server (C s n))));
    l_loc : forall p, In p ids -> lloc (n_conn s) (n_next s) p (todo_at s p) (At s p)
  }.

  Lemma perm_filter_length {A} (g : A -> bool) l l' : Permutation l l' -> length (filter g l) = length (filter g l').
  Proof. induction 1; cbn; auto; repeat (destruct (g _)); cbn; congruence. Qed.
  Lemma linv0 : linv net0.
  Proof using HC.
    destruct HC as ((Hnd & Hr) & Hcf).
    constructor; cbn; intros; try lia; try congruence; try tauto.
    constructor; cbn; intros; try contradiction; try discriminate.
    - constructor.
    - left. unfold todo_at. cbn. eapply Permutation_in; [symmetry; apply (Hcf p H)|assumption].
    - unfold todo_at. cbn. apply perm_filter_length, Hcf, H.
    - unfold todo_at. cbn. split; [|apply incl_refl]. eapply Permutation_NoDup; [symmetry; apply (Hcf p H)|exact Hnd].
  Qed.

  (** Another process's facts survive when connections keep their ends and stay accepted. *)
  Lemma lloc_mono c nx c' nx' p td f : lloc c nx p td f -> (nx <= nx')%nat ->
    (forall n, (n < nx)%nat -> c_client (c' n) = c_client (c n) /\ c_server (c' n) = c_server (c n) /\ (c_accepted (c n) = true -> c_accepted (c' n) = true)) ->
    lloc c' nx' p td f.
  Proof.
    intros L Hnx H. constructor; try apply L.
    - intros z n Hin. destruct (k_map _ _ _ _ _ L z n Hin) as [Hn Hcase]. destruct (H n Hn) as (-> & -> & Ha). split; [lia|]. tauto.
    - intros e t m n Hf. destruct (k_dial _ _ _ _ _ L e t m n Hf) as [Hn Hcase]. destruct (H n Hn) as (-> & -> & Ha). split; [lia|]. tauto.
    - intros t m n Hf. destruct (k_hear _ _ _ _ _ L t m n Hf) as [Hn Hcase]. destruct (H n Hn) as (_ & -> & Ha). split; [lia|]. tauto.
  Qed.

  Lemma linv_step s p f c' nx' : linv s -> In p ids -> f <> Down -> ~ dead f -> (n_next s <= nx')%nat ->
    (forall n, (n < n_next s)%nat -> c_client (c' n) = c_client (C s n) /\ c_server (c' n) = c_server (C s n) /\ (c_accepted (C s n) = true -> c_accepted (c' n) = true)) ->
    (forall n, (n < n_next s)%nat -> c_accepted (c' n) = true -> c_accepted (C s n) = true \/ (c_server (C s n) = p /\ exists t m, f = Hear t m n)) ->
    (forall n, (n_next s <= n < nx')%nat -> c_client (c' n) = p /\ In (c_server (c' n)) ids /\ c_server (c' n) < p /\ At s (c_server (c' n)) <> Down /\
       c_accepted (c' n) = false /\ c_hello (c' n) = None /\ c_opener (c' n) = None /\ c_acceptor (c' n) = None /\ chs_of f = [] /\ exists e t m, f = Dial e t m n) ->
    (forall n k, (n < nx')%nat -> (k < nx')%nat -> c_client (c' n) = c_client (c' k) -> c_server (c' n) = c_server (c' k) -> n = k) ->
    (forall n z, (n < n_next s)%nat -> c_hello (c' n) = Some z -> z = c_client (C s n)) ->
    (forall n, (n < n_next s)%nat -> c_hello (c' n) = None -> c_hello (C s n) = None /\ (c_client (C s n) = p -> exists e t m, f = Dial e t m n)) ->
    (forall n, (n < nx')%nat -> c_client (c' n) = p -> ~ In (c_server (c' n)) (map e_id (todo_of f))) ->
    (forall n, (n < n_next s)%nat -> c_accepted (C s n) = true -> c_server (C s n) = p ->
       (In (c_client (C s n), n) (conns_of (At s p)) \/ exists t m, At s p = Hear t m n) -> In (c_client (C s n), n) (conns_of f) \/ exists t m, f = Hear t m n) ->
    (forall n v, (n < n_next s)%nat -> c_opener (c' n) = Some v -> v = u32 (c_client (C s n))) ->
    (forall n, (n < n_next s)%nat -> c_opener (c' n) = None -> c_opener (C s n) = None /\
       (c_client (C s n) = p -> ~ In (c_server (C s n), n) (chs_of f) /\ forall z t ch, f <> Wait z n t ch)) ->
    (forall n v, (n < n_next s)%nat -> c_acceptor (c' n) = Some v -> v = u32 (c_server (C s n))) ->
    (forall n, (n < n_next s)%nat -> c_acceptor (c' n) = None -> c_acceptor (C s n) = None /\ (c_server (C s n) = p -> ~ In (c_client (C s n), n) (chs_of f))) ->
    lloc c' nx' p (todo_of f) f ->
    linv (Net (upd (n_at s) p f) c' nx').
  Proof.
    intros I Hp Hf Hd Hnx Hsame Hacc Hnew Hu Hhe Hsil Hfr Hkeep Hop Hunop Hse Hunse Hloc.
    assert (Hat : forall q, q <> p -> upd (n_at s) p f q = At s q) by (intros; apply upd_other; assumption).
    assert (Hnd : forall q, At s q <> Down -> upd (n_at s) p f q <> Down).
    { intros q Hq. destruct (Z.eq_dec q p) as [->|Hne]; [rewrite upd_same; exact Hf|rewrite Hat by exact Hne; exact Hq]. }
    assert (Htd : forall q, q <> p -> todo_at (Net (upd (n_at s) p f) c' nx') q = todo_at s q).
    { intros q Hq. unfold todo_at. cbn [n_at]. rewrite Hat by exact Hq. reflexivity. }
    assert (Htp : todo_at (Net (upd (n_at s) p f) c' nx') p = todo_of f).
    { unfold todo_at. cbn [n_at]. rewrite upd_same. destruct f; try reflexivity. congruence. }
    constructor; cbn [n_at n_conn n_next].
    - intros q Hq. destruct (Z.eq_dec q p) as [->|Hne]; [exact Hp|]. rewrite Hat in Hq by exact Hne. apply (l_ids _ I), Hq.
    - intros q. destruct (Z.eq_dec q p) as [->|Hne]; [rewrite upd_same; exact Hd|rewrite Hat by exact Hne; apply (l_alive _ I)].
    - intros n Hn. destruct (Nat.lt_ge_cases n (n_next s)) as [Hl|Hl].
      + destruct (Hsame n Hl) as (-> & -> & _). destruct (l_ends _ I n Hl) as (H1 & H2 & H3 & H4 & H5). repeat split; auto.
      + destruct (Hnew n ltac:(lia)) as (-> & H1 & H2 & H3 & _). repeat split; auto. rewrite upd_same. exact Hf.
    - exact Hu.
    - intros n z Hn Hz. destruct (Nat.lt_ge_cases n (n_next s)) as [Hl|Hl].
      + destruct (Hsame n Hl) as (-> & _). apply Hhe; assumption.
      + destruct (Hnew n ltac:(lia)) as (_ & _ & _ & _ & _ & H & _). congruence.
    - intros n Hn Hz. destruct (Nat.lt_ge_cases n (n_next s)) as [Hl|Hl].
      + destruct (Hsame n Hl) as (-> & _). destruct (Hsil n Hl Hz) as [H1 H2].
        destruct (Z.eq_dec (c_client (C s n)) p) as [E|Hne]; [rewrite E, upd_same; apply H2, E|rewrite Hat by exact Hne; apply (l_silent _ I n Hl H1)].
      + destruct (Hnew n ltac:(lia)) as (-> & _ & _ & _ & _ & _ & _ & _ & _ & H). rewrite upd_same. exact H.
    - intros n Hn. destruct (Nat.lt_ge_cases n (n_next s)) as [Hl|Hl].
      + destruct (Z.eq_dec (c_client (c' n)) p) as [E|Hne]; [rewrite E, Htp; apply Hfr; assumption|]. rewrite Htd by exact Hne.
        destruct (Hsame n Hl) as (E1 & -> & _). rewrite E1. apply (l_fresh _ I n Hl).
      + destruct (Hnew n ltac:(lia)) as (E & _). rewrite E, Htp. apply Hfr; [assumption|exact E].
    - intros n Hn Ha. destruct (Nat.lt_ge_cases n (n_next s)) as [Hl|Hl].
      2:{ destruct (Hnew n ltac:(lia)) as (_ & _ & _ & _ & H & _). congruence. }
      destruct (Hsame n Hl) as (-> & -> & _). destruct (Hacc n Hl Ha) as [Ho|[Es Hh]].
      + pose proof (l_acc _ I n Hl Ho) as H. destruct (Z.eq_dec (c_server (C s n)) p) as [E|Hne]; [|rewrite Hat by exact Hne; exact H].
        rewrite E, upd_same. rewrite E in H. apply Hkeep; assumption.
      + rewrite Es, upd_same. right. exact Hh.
    - intros n v Hn Hv. destruct (Nat.lt_ge_cases n (n_next s)) as [Hl|Hl].
      + destruct (Hsame n Hl) as (-> & _). apply Hop; assumption.
      + destruct (Hnew n ltac:(lia)) as (_ & _ & _ & _ & _ & _ & H & _). congruence.
    - intros n Hn Hv. destruct (Nat.lt_ge_cases n (n_next s)) as [Hl|Hl].
      + destruct (Hsame n Hl) as (-> & -> & _). destruct (Hunop n Hl Hv) as [H1 H2].
        destruct (Z.eq_dec (c_client (C s n)) p) as [E|Hne]; [rewrite E, upd_same; apply H2, E|rewrite Hat by exact Hne; apply (l_unopened _ I n Hl H1)].
      + destruct (Hnew n ltac:(lia)) as (-> & _ & _ & _ & _ & _ & _ & _ & H & (e & t & m & H')). rewrite upd_same, H. split; [intros []|]. intros. rewrite H'. discriminate.
    - intros n v Hn Hv. destruct (Nat.lt_ge_cases n (n_next s)) as [Hl|Hl].
      + destruct (Hsame n Hl) as (_ & -> & _). apply Hse; assumption.
      + destruct (Hnew n ltac:(lia)) as (_ & _ & _ & _ & _ & _ & _ & H & _). congruence.
    - intros n Hn Hv. destruct (Nat.lt_ge_cases n (n_next s)) as [Hl|Hl].
      + destruct (Hsame n Hl) as (-> & -> & _). destruct (Hunse n Hl Hv) as [H1 H2].
        destruct (Z.eq_dec (c_server (C s n)) p) as [E|Hne]; [rewrite E, upd_same; apply H2, E|rewrite Hat by exact Hne; apply (l_unserved _ I n Hl H1)].
      + destruct (Hnew n ltac:(lia)) as (E & Hi & Hlt & _). rewrite Hat by lia. intros Hin. apply chs_conns in Hin.
        pose proof (l_loc _ I _ Hi) as L. apply (k_map _ _ _ _ _ L) in Hin. lia.
    - intros q Hq. destruct (Z.eq_dec q p) as [->|Hne]; [rewrite Htp, upd_same; exact Hloc|]. rewrite Htd, Hat by exact Hne.
      apply (lloc_mono (n_conn s) (n_next s)); [apply (l_loc _ I), Hq|exact Hnx|exact Hsame].
  Qed.

  Lemma linv_goto s p f : linv s -> In p ids -> f <> Down -> ~ dead f ->
    (forall e t m n, At s p <> Dial e t m n) -> (forall z n t ch, f <> Wait z n t ch) ->
    incl (map e_id (todo_of f)) (map e_id (todo_at s p)) ->
    incl (conns_of (At s p)) (conns_of f) ->
    (forall t m n, At s p = Hear t m n -> In (c_client (C s n), n) (conns_of f)) ->
    (forall n, (n < n_next s)%nat -> c_client (C s n) = p -> c_opener (C s n) = None -> ~ In (c_server (C s n), n) (chs_of f)) ->
    (forall n, (n < n_next s)%nat -> c_server (C s n) = p -> c_acceptor (C s n) = None -> ~ In (c_client (C s n), n) (chs_of f)) ->
    lloc (n_conn s) (n_next s) p (todo_of f) f -> linv (goto s p f).
  Proof.
    intros I Hp Hf Hd Hnd Hnw Htd Hco Hhe Hop Hac L. apply linv_step; auto.
    - intros. lia.
    - apply (l_uniq _ I).
    - apply (l_hello _ I).
    - intros n Hn Hz. split; [exact Hz|]. intros E. destruct (l_silent _ I n Hn Hz) as (e & t & m & H). rewrite E in H. destruct (Hnd _ _ _ _ H).
    - intros n Hn E Hin. apply (l_fresh _ I n Hn). rewrite E. apply Htd, Hin.
    - intros n Hn Ha Es [H|(t & m & H)]; left; [apply Hco, H|apply (Hhe t m), H].
    - apply (l_opened _ I).
    - apply (l_served _ I).
  Qed.
  Lemma linv_goto_set s p f n r : linv s -> In p ids -> f <> Down -> ~ dead f -> (n < n_next s)%nat ->
    c_client r = c_client (C s n) -> c_server r = c_server (C s n) -> (c_accepted (C s n) = true -> c_accepted r = true) ->
    (c_accepted r = true -> c_accepted (C s n) = true \/ (c_server (C s n) = p /\ exists t m, f = Hear t m n)) ->
    (forall z, c_hello r = Some z -> z = c_client (C s n)) -> (c_hello r = None -> c_hello (C s n) = None) ->
    (forall k, (k < n_next s)%nat -> c_client (C s k) = p -> c_hello (updn (n_conn s) n r k) = None -> False) ->
    incl (map e_id (todo_of f)) (map e_id (todo_at s p)) ->
    incl (conns_of (At s p)) (conns_of f) ->
    (forall t m k, At s p <> Hear t m k) ->
    (forall v, c_opener r = Some v -> v = u32 (c_client (C s n))) -> (c_opener r = None -> c_opener (C s n) = None) ->
    (forall v, c_acceptor r = Some v -> v = u32 (c_server (C s n))) -> (c_acceptor r = None -> c_acceptor (C s n) = None) ->
    (forall k, (k < n_next s)%nat -> c_client (C s k) = p -> c_opener (updn (n_conn s) n r k) = None -> ~ In (c_server (C s k), k) (chs_of f) /\ forall z t ch, f <> Wait z k t ch) ->
    (forall k, (k < n_next s)%nat -> c_server (C s k) = p -> c_acceptor (updn (n_conn s) n r k) = None -> ~ In (c_client (C s k), k) (chs_of f)) ->
    (lloc (updn (n_conn s) n r) (n_next s) p (todo_at s p) (At s p) -> lloc (updn (n_conn s) n r) (n_next s) p (todo_of f) f) -> linv (goto_set s p f n r).
  Proof.
    intros I Hp Hf Hd Hn Ec Es Ha Ha' Hh Hh' Hsil Htd Hco Hnh Ho Ho' Hs Hs' Hop Hac L.
    assert (EC : forall k, c_client (updn (n_conn s) n r k) = c_client (C s k)).
    { intros k. destruct (Nat.eq_dec k n) as [->|Hkn]; [rewrite updn_same; exact Ec|rewrite updn_other by exact Hkn; reflexivity]. }
    assert (ES : forall k, c_server (updn (n_conn s) n r k) = c_server (C s k)).
    { intros k. destruct (Nat.eq_dec k n) as [->|Hkn]; [rewrite updn_same; exact Es|rewrite updn_other by exact Hkn; reflexivity]. }
    assert (EA : forall k, c_accepted (C s k) = true -> c_accepted (updn (n_conn s) n r k) = true).
    { intros k. destruct (Nat.eq_dec k n) as [->|Hkn]; [rewrite updn_same; exact Ha|rewrite updn_other by exact Hkn; auto]. }
    apply linv_step; auto.
    - intros k Hk. destruct (Nat.eq_dec k n) as [->|Hkn]; [rewrite updn_same; exact Ha'|rewrite updn_other by exact Hkn; auto].
    - intros. lia.
    - intros k l Hk Hl. rewrite !EC, !ES. apply (l_uniq _ I); assumption.
    - intros k z Hk. destruct (Nat.eq_dec k n) as [->|Hkn]; [rewrite updn_same; apply Hh|rewrite updn_other by exact Hkn; apply (l_hello _ I), Hk].
    - intros k Hk Hz. split; [|intros E; destruct (Hsil k Hk E Hz)]. destruct (Nat.eq_dec k n) as [->|Hkn]; [rewrite updn_same in Hz; apply Hh', Hz|rewrite updn_other in Hz by exact Hkn; exact Hz].
    - intros k Hk. rewrite EC, ES. intros E Hin. apply (l_fresh _ I k Hk). rewrite E. apply Htd, Hin.
    - intros k Hk _ E [H|(t & m & H)]; [left; apply Hco, H|destruct (Hnh _ _ _ H)].
    - intros k v Hk. destruct (Nat.eq_dec k n) as [->|Hkn]; [rewrite updn_same; apply Ho|rewrite updn_other by exact Hkn; apply (l_opened _ I), Hk].
    - intros k Hk Hz. split; [|intros E; apply Hop; assumption]. destruct (Nat.eq_dec k n) as [->|Hkn]; [rewrite updn_same in Hz; apply Ho', Hz|rewrite updn_other in Hz by exact Hkn; exact Hz].
    - intros k v Hk. destruct (Nat.eq_dec k n) as [->|Hkn]; [rewrite updn_same; apply Hs|rewrite updn_other by exact Hkn; apply (l_served _ I), Hk].
    - intros k Hk Hz. split; [|intros E; apply Hac; assumption]. destruct (Nat.eq_dec k n) as [->|Hkn]; [rewrite updn_same in Hz; apply Hs', Hz|rewrite updn_other in Hz by exact Hkn; exact Hz].
    - apply L. apply (lloc_mono (n_conn s) (n_next s)); [apply (l_loc _ I), Hp|lia|]. intros k Hk. rewrite EC, ES. auto.
  Qed.

  Lemma above_cons p z l : above p (z :: l) = ((if (p <? z)%Z then 1 else 0) + above p l)%nat.
  Proof. unfold above. cbn. destruct (p <? z); reflexivity. Qed.
  Lemma above_app p l l' : above p (l ++ l') = (above p l + above p l')%nat.
  Proof. unfold above. rewrite filter_app, app_length. reflexivity. Qed.
  Lemma above_insert p z n m m' : binsert z n m = Some m' -> above p (keys m') = ((if (p <? z)%Z then 1 else 0) + above p (keys m))%nat.
  Proof.
    revert m'. induction m as [|[k v] m IH]; intros m' H; cbn [binsert] in H.
    - injection H as <-. cbn [keys map fst]. apply above_cons.
    - destruct (z <? k); [injection H as <-; apply above_cons|]. destruct (z =? k); [discriminate|].
      destruct (binsert z n m) as [t|]; [|discriminate]. injection H as <-. cbn [keys map fst]. rewrite !above_cons. fold (keys t) (keys m). rewrite (IH t eq_refl). lia.
  Qed.
  (** Once nothing is left to do, everybody else is in the map. *)
  Lemma all_keys c nx p f : In p ids -> lloc c nx p [] f -> hearing f = 0%nat -> (forall e t m n, f <> Dial e t m n) ->
    (forall n, (n < nx)%nat -> In (c_client (c n)) ids /\ In (c_server (c n)) ids /\ c_server (c n) < c_client (c n)) ->
    forall q, In q (keys (conns_of f)) <-> In q ids /\ q <> p.
  Proof using HC.
    intros Hp L Hh Hnd Hends q. destruct HC as ((HN & Hr) & _). split.
    - intros Hq. apply keys_in in Hq. destruct Hq as (n & Hq). destruct (k_map _ _ _ _ _ L q n Hq) as [Hn H]. destruct (Hends n Hn) as (H1 & H2 & H3).
      destruct H as [[E1 E2]|(E1 & E2 & _)]; rewrite E1, E2 in *; split; auto; lia.
    - intros [Hq Hqp]. destruct (Z.lt_total q p) as [Hlt|[He|Hgt]]; [|congruence|].
      + destruct (k_low _ _ _ _ _ L q Hq Hlt) as [[]|[H|(e & t & m & n & H & _)]]; [exact H|destruct (Hnd _ _ _ _ H)].
      + pose proof (k_cnt _ _ _ _ _ L) as Hc. rewrite Hh in Hc. cbn [map] in Hc. unfold above in Hc. cbn [filter length] in Hc. rewrite !Nat.add_0_r in Hc.
        assert (Hi : incl (filter (Z.ltb p) ids) (filter (Z.ltb p) (keys (conns_of f)))).
        { apply NoDup_length_incl; [apply NoDup_filter, srt_nodup, (k_keys _ _ _ _ _ L)|lia|].
          intros x Hx. apply filter_In in Hx. destruct Hx as [Hx Hpx]. apply filter_In. split; [|exact Hpx].
          apply keys_in in Hx. destruct Hx as (n & Hx). destruct (k_map _ _ _ _ _ L x n Hx) as [Hn H]. destruct (Hends n Hn) as (H1 & H2 & H3).
          destruct H as [[E1 E2]|(E1 & E2 & _)]; rewrite E1, E2 in *; assumption. }
        assert (Hq' : In q (filter (Z.ltb p) ids)) by (apply filter_In; split; [exact Hq|apply Z.ltb_lt; lia]).
        apply Hi, filter_In in Hq'. apply Hq'.
  Qed.

  Context (Htwo : (2 <= length ids)%nat).
  Lemma other p : exists q, In q ids /\ q <> p.
  Proof using HC Htwo.
    destruct HC as ((HN & _) & _). destruct ids as [|a [|b l]]; cbn in Htwo; try lia. inversion HN as [|? ? Ha _]; subst.
    destruct (Z.eq_dec a p) as [->|Hne]; [exists b|exists a]; split; cbn; auto. intros ->. apply Ha. left. reflexivity.
  Qed.
  Lemma ends3 s : linv s -> forall n, (n < n_next s)%nat -> In (c_client (C s n)) ids /\ In (c_server (C s n)) ids /\ c_server (C s n) < c_client (C s n).
  Proof. intros I n Hn. destruct (l_ends _ I n Hn) as (H1 & H2 & H3 & _). auto. Qed.

  Ltac side := try assumption; cbn [conns_of chs_of todo_of c_client c_server c_accepted c_hello c_opener c_acceptor]; try discriminate; try (intros []; fail); try (intros ? ? ? ? []; fail).
  Lemma linv_pres s s' : linv s -> nstep w s s' -> linv s'.
  Proof using HC Hout Hfault Htwo.
    intros I H. destruct HC as ((HN & Hr) & Hcf).
    destruct H as [p s Hp E|p s e t m Hp E Ee|p s e t m q Hp E Ee Hh Hl Ht|p s e t m q Hp E Ee Hh Hl Ht|p s e t m n r Hp E Er Hz|
      p s e t m n r Hp E Ee Hn Er Hs Ha|p s t m n z Hp E Hz|p s m Hp E|p s m Hp E|p s z n t ch r Hp E Hz Er|p s z n t ch v Hp E Hv|
      p s z n t ch r v Hp E Hz Er Hv|p s ch Hp E|p s Hp Hf Ho|p z s h o Hp Hz Ho Hl]; [..|congruence|congruence].
    all: pose proof (l_loc _ I p Hp) as L; assert (TD : todo_at s p = match At s p with Down => w_conf w p | f => todo_of f end) by reflexivity; rewrite E in TD; cbn [todo_of] in TD; rewrite TD, E in L.
    - (* start *)
      assert (EC : check_config p (map e_id (w_conf w p)) = Ok tt).
      { apply check_config_spec. split; [eapply Permutation_in; [symmetry; apply (Hcf p Hp)|exact Hp]|eapply Permutation_NoDup; [symmetry; apply (Hcf p Hp)|exact HN]]. }
      rewrite EC. apply linv_goto; side; try (rewrite E; discriminate); try (rewrite TD; apply incl_refl).
      + rewrite E. intros ? [].
      + constructor; cbn [conns_of]; try discriminate; try (intros; contradiction); try apply L.
        intros b Hb Hlt. destruct (k_low _ _ _ _ _ L b Hb Hlt) as [H|[H|(? & ? & ? & ? & H & _)]]; [auto|auto|discriminate].
    - (* skip *)
      apply linv_goto; side; try (rewrite E; discriminate).
      + rewrite TD. cbn [map]. intros x Hx. right. exact Hx.
      + rewrite E. apply incl_refl.
      + constructor; cbn [conns_of]; try discriminate; try apply L.
        * intros b Hb Hlt. destruct (k_low _ _ _ _ _ L b Hb Hlt) as [[H|H]|[H|(? & ? & ? & ? & H & _)]]; [lia|auto|auto|discriminate].
        * pose proof (k_cnt _ _ _ _ _ L) as Hc. cbn [conns_of hearing map] in Hc. rewrite above_cons in Hc. rewrite Ee, Z.ltb_irrefl in Hc. exact Hc.
        * destruct (k_todo _ _ _ _ _ L) as [H1 H2]. split; [inversion H1; assumption|]. intros x Hx. apply H2. right. exact Hx.
    - (* dial *)
      destruct (k_todo _ _ _ _ _ L) as [HT1 HT2]. assert (Hin : In e (w_conf w p)) by (apply HT2; left; reflexivity).
      destruct (proj2 (Hcf p Hp) e Hin) as [Hho _]. assert (q = e_id e) by congruence. subst q.
      assert (Hq : In (e_id e) ids) by (apply (l_ids _ I); intros Hq; rewrite Hq in Hl; discriminate).
      assert (Hnone : forall n, (n < n_next s)%nat -> c_client (C s n) = p -> c_server (C s n) <> e_id e).
      { intros n Hn Ec Es. apply (l_fresh _ I n Hn). rewrite Ec, Es, TD. left. reflexivity. }
      assert (Hnk : ~ In (e_id e) (keys m)).
      { intros Hk. apply keys_in in Hk. destruct Hk as (n & Hk). destruct (k_map _ _ _ _ _ L _ _ Hk) as [Hn Hcase]. destruct (ends3 s I n Hn) as (_ & _ & Hlt).
        destruct Hcase as [[E1 E2]|(E1 & E2 & _)]; [apply (Hnone n Hn E1 E2)|lia]. }
      apply linv_step; side; try lia.
      + intros n Hn. rewrite updn_other by lia. auto.
      + intros n Hn. rewrite updn_other by lia. auto.
      + intros n Hn. replace n with (n_next s) by lia. rewrite updn_same. cbn [c_client c_server c_accepted c_hello c_opener c_acceptor].
        split; [reflexivity|]. split; [exact Hq|]. split; [exact Ee|]. split; [intros Hd; rewrite Hd in Hl; discriminate|]. repeat (split; [reflexivity|]). eauto.
      + intros n k Hn Hk. destruct (Nat.eq_dec n (n_next s)) as [->|Hn'], (Nat.eq_dec k (n_next s)) as [->|Hk']; rewrite ?updn_same, ?updn_other by assumption; cbn [c_client c_server]; intros E1 E2.
        * reflexivity.
        * exfalso. apply (Hnone k ltac:(lia)); auto.
        * exfalso. apply (Hnone n ltac:(lia)); auto.
        * apply (l_uniq _ I); [lia|lia|assumption|assumption].
      + intros n z Hn. rewrite updn_other by lia. apply (l_hello _ I _ _ Hn).
      + intros n Hn Hz. rewrite updn_other in Hz by lia. split; [exact Hz|]. intros Ec. destruct (l_silent _ I n Hn Hz) as (? & ? & ? & H). rewrite Ec, E in H. discriminate.
      + intros n Hn Ec Hx. destruct (Nat.eq_dec n (n_next s)) as [->|Hn'].
        * rewrite updn_same in Hx. cbn [c_server] in Hx. cbn [map] in HT1. inversion HT1; contradiction.
        * rewrite updn_other in Hx, Ec by assumption. apply (l_fresh _ I n ltac:(lia)). rewrite Ec, TD. right. exact Hx.
      + intros n Hn _ Es. rewrite E. intros [H|(? & ? & H)]; [left; exact H|discriminate].
      + intros n v Hn. rewrite updn_other by lia. apply (l_opened _ I _ _ Hn).
      + intros n Hn Hz. rewrite updn_other in Hz by lia. split; [exact Hz|]. intros _. split; [intros []|discriminate].
      + intros n v Hn. rewrite updn_other by lia. apply (l_served _ I _ _ Hn).
      + intros n Hn Hz. rewrite updn_other in Hz by lia. split; [exact Hz|]. intros _ [].
      + assert (L' : lloc (updn (n_conn s) (n_next s) (CRec p (e_id e) false None None None)) (S (n_next s)) p (e :: t) (Loop (e :: t) m)).
        { apply (lloc_mono (n_conn s) (n_next s)); [exact L|lia|]. intros n Hn. rewrite updn_other by lia. auto. }
        constructor; cbn [conns_of]; try discriminate; try apply L'.
        * intros e0 t0 m0 n0 HH. injection HH as <- <- <- <-. rewrite updn_same. auto.
        * intros b Hb Hlt. destruct (k_low _ _ _ _ _ L b Hb Hlt) as [[H|H]|[H|(? & ? & ? & ? & H & _)]]; [|auto|auto|discriminate].
          right. right. exists e, t, m, (n_next s). auto.
        * pose proof (k_cnt _ _ _ _ _ L) as Hc. cbn [conns_of hearing map] in *. rewrite above_cons in Hc. destruct (Z.ltb_spec p (e_id e)); [lia|]. exact Hc.
        * cbn [map] in HT1. inversion HT1. split; [assumption|]. intros y0 Hy0. apply HT2. right. exact Hy0.
    - (* untrusted *)
      exfalso. destruct (k_todo _ _ _ _ _ L) as [HT1 HT2]. assert (Hin : In e (w_conf w p)) by (apply HT2; left; reflexivity).
      destruct (proj2 (Hcf p Hp) e Hin) as [Hho Htl]. assert (q = e_id e) by congruence. subst q. congruence.
    - (* greet *)
      destruct (k_dial _ _ _ _ _ L _ _ _ _ eq_refl) as (Hn & Ec & Es & Hnk). subst r.
      assert (Hlt : p <? 2 ^ 32 = true) by (apply Z.ltb_lt, Hr, Hp). rewrite Hlt. unfold inserted.
      destruct (binsert (e_id e) n m) as [m'|] eqn:Eb; [|exfalso; apply Hnk; eapply binsert_none; exact Eb].
      apply linv_goto_set; side; auto.
      + intros z H. congruence.
      + intros k Hk Ek Hz'. destruct (Nat.eq_dec k n) as [->|Hkn]; [rewrite updn_same in Hz'; discriminate|]. rewrite updn_other in Hz' by exact Hkn.
        destruct (l_silent _ I k Hk Hz') as (? & ? & ? & H). rewrite Ek, E in H. congruence.
      + rewrite TD. apply incl_refl.
      + rewrite E. intros kv Hkv. apply (binsert_in _ _ _ _ Eb). auto.
      + rewrite E. discriminate.
      + intros v0. apply (l_opened _ I _ v0 Hn).
      + intros v0. apply (l_served _ I _ v0 Hn).
      + intros. split; [intros []|discriminate].
      + intros L'. rewrite TD, E in L'. constructor; cbn [conns_of]; try discriminate; try apply L'.
        * intros z k Hin. apply (binsert_in _ _ _ _ Eb) in Hin. destruct Hin as [HH|Hin]; [|apply (k_map _ _ _ _ _ L'), Hin].
          injection HH as -> ->. rewrite updn_same. cbn [c_client c_server]. auto.
        * eapply binsert_srt; [apply (k_keys _ _ _ _ _ L)|exact Eb].
        * intros b Hb Hlt'. destruct (k_low _ _ _ _ _ L' b Hb Hlt') as [H|[H|(? & ? & ? & ? & H & Hb')]]; [auto|right; left|right; left].
          -- apply keys_in in H. destruct H as (k & H). apply keys_in. exists k. apply (binsert_in _ _ _ _ Eb). auto.
          -- apply keys_in. exists n. apply (binsert_in _ _ _ _ Eb). left. congruence.
        * pose proof (k_cnt _ _ _ _ _ L) as Hc. cbn [conns_of hearing] in *. rewrite (above_insert p _ _ _ _ Eb).
          destruct (l_ends _ I n Hn) as (_ & _ & H & _). rewrite Ec, Es in H. destruct (Z.ltb_spec p (e_id e)); [lia|]. exact Hc.
    - (* accept *)
      subst r. apply linv_goto_set; side; auto.
      + intros _. right. eauto.
      + intros z. apply (l_hello _ I _ _ Hn).
      + intros k Hk Ek Hz'. assert (Hz : c_hello (C s k) = None). { destruct (Nat.eq_dec k n) as [->|Hkn]; [rewrite updn_same in Hz'|rewrite updn_other in Hz' by exact Hkn]; exact Hz'. }
        destruct (l_silent _ I k Hk Hz) as (? & ? & ? & H). rewrite Ek, E in H. congruence.
      + rewrite TD. intros x Hx. right. exact Hx.
      + rewrite E. apply incl_refl.
      + rewrite E. discriminate.
      + intros v0. apply (l_opened _ I _ v0 Hn).
      + intros v0. apply (l_served _ I _ v0 Hn).
      + intros. split; [intros []|discriminate].
      + intros L'. rewrite TD, E in L'. constructor; cbn [conns_of]; try discriminate; try apply L'.
        * intros t0 m0 n0 HH. injection HH as <- <- <-. rewrite updn_same. cbn [c_server c_accepted]. split; [exact Hn|]. split; [exact Hs|]. split; [reflexivity|].
          intros z Hin. destruct (k_map _ _ _ _ _ L _ _ Hin) as [_ [[E1 E2]|(_ & _ & Ea)]]; [|congruence].
          destruct (l_ends _ I n Hn) as (_ & _ & H & _). lia.
        * intros b Hb Hlt'. destruct (k_low _ _ _ _ _ L b Hb Hlt') as [[H|H]|[H|(? & ? & ? & ? & H & Hb')]]; [lia|auto|auto|discriminate].
        * pose proof (k_cnt _ _ _ _ _ L) as Hc. cbn [conns_of hearing map] in *. rewrite above_cons in Hc. destruct (Z.ltb_spec p (e_id e)); lia.
        * destruct (k_todo _ _ _ _ _ L) as [H1 H2]. split; [inversion H1; assumption|]. intros x Hx. apply H2. right. exact Hx.
    - (* hear *)
      destruct (k_hear _ _ _ _ _ L _ _ _ eq_refl) as (Hn & Es & Ha & Hni). assert (Ec : z = c_client (C s n)) by (apply (l_hello _ I _ _ Hn Hz)).
      destruct (l_ends _ I n Hn) as (_ & _ & Hlt & _). unfold inserted.
      destruct (binsert z n m) as [m'|] eqn:Eb.
      2:{ exfalso. apply binsert_none, keys_in in Eb. destruct Eb as (k & Hk). destruct (k_map _ _ _ _ _ L _ _ Hk) as [Hkn [[E1 E2]|(E1 & E2 & _)]].
          - destruct (l_ends _ I k Hkn) as (_ & _ & H & _). lia.
          - assert (k = n) by (apply (l_uniq _ I); congruence). subst k. apply (Hni _ Hk). }
      apply linv_goto; side; try (rewrite E; discriminate).
      + rewrite TD. apply incl_refl.
      + rewrite E. intros kv Hkv. apply (binsert_in _ _ _ _ Eb). auto.
      + rewrite E. intros t0 m0 n0 HH. injection HH as <- <- <-. apply (binsert_in _ _ _ _ Eb). left. congruence.
      + constructor; cbn [conns_of]; try discriminate; try apply L.
        * intros y k Hin. apply (binsert_in _ _ _ _ Eb) in Hin. destruct Hin as [HH|Hin]; [|apply (k_map _ _ _ _ _ L), Hin]. injection HH as -> ->. auto.
        * eapply binsert_srt; [apply (k_keys _ _ _ _ _ L)|exact Eb].
        * intros b Hb Hlt'. destruct (k_low _ _ _ _ _ L b Hb Hlt') as [H|[H|(? & ? & ? & ? & H & Hb')]]; [auto|right; left|discriminate].
          apply keys_in in H. destruct H as (k & H). apply keys_in. exists k. apply (binsert_in _ _ _ _ Eb). auto.
        * pose proof (k_cnt _ _ _ _ _ L) as Hc. cbn [conns_of hearing] in *. rewrite (above_insert p _ _ _ _ Eb). destruct (Z.ltb_spec p z); lia.
    - (* up *)
      apply linv_goto; side; try (rewrite E; discriminate).
      + rewrite TD. apply incl_refl.
      + rewrite E. apply incl_refl.
      + constructor; cbn [conns_of]; try discriminate; try apply L.
        intros b Hb Hlt'. destruct (k_low _ _ _ _ _ L b Hb Hlt') as [H|[H|(? & ? & ? & ? & H & Hb')]]; [auto|auto|discriminate].
    - (* chans *)
      destruct m as [|kv m].
      { exfalso. destruct (other p) as (q & Hq & Hqp). pose proof (all_keys (n_conn s) (n_next s) p (Up []) Hp L eq_refl ltac:(discriminate) (ends3 s I) q) as H.
        apply (proj2 H). auto. }
      apply linv_goto; side; try (rewrite E; discriminate).
      + rewrite TD. apply incl_refl.
      + rewrite E. apply incl_refl.
      + constructor; cbn [conns_of app]; try discriminate; try apply L.
        intros b Hb Hlt'. destruct (k_low _ _ _ _ _ L b Hb Hlt') as [H|[H|(? & ? & ? & ? & H & Hb')]]; [auto|auto|discriminate].
    - (* open *)
      assert (Hin : In (z, n) (ch ++ (z, n) :: t)) by (apply in_or_app; right; left; reflexivity).
      destruct (k_map _ _ _ _ _ L _ _ Hin) as [Hn Hcase]. destruct (l_ends _ I n Hn) as (_ & _ & Hlt & _).
      assert (Ec : c_client (C s n) = p /\ c_server (C s n) = z) by (destruct Hcase as [?|(? & ? & _)]; [assumption|lia]). destruct Ec as [Ec Es]. subst r.
      apply linv_goto_set; side; auto.
      + intros y. apply (l_hello _ I _ _ Hn).
      + intros k Hk Ek Hz'. assert (Hz0 : c_hello (C s k) = None). { destruct (Nat.eq_dec k n) as [->|Hkn]; [rewrite updn_same in Hz'|rewrite updn_other in Hz' by exact Hkn]; exact Hz'. }
        destruct (l_silent _ I k Hk Hz0) as (? & ? & ? & H). rewrite Ek, E in H. congruence.
      + intros ? [].
      + rewrite E. apply incl_refl.
      + rewrite E. discriminate.
      + intros v Hv. congruence.
      + intros v0. apply (l_served _ I _ v0 Hn).
      + intros k Hk Ek Ho. destruct (Nat.eq_dec k n) as [->|Hkn]; [rewrite updn_same in Ho; discriminate|]. rewrite updn_other in Ho by exact Hkn.
        destruct (l_unopened _ I k Hk Ho) as [H1 _]. rewrite Ek, E in H1. split; [exact H1|]. intros. congruence.
      + intros k Hk Ek Ho. assert (Ho' : c_acceptor (C s k) = None). { destruct (Nat.eq_dec k n) as [->|Hkn]; [rewrite updn_same in Ho|rewrite updn_other in Ho by exact Hkn]; exact Ho. }
        pose proof (l_unserved _ I k Hk Ho') as H1. rewrite Ek, E in H1. exact H1.
      + intros L'. rewrite TD, E in L'. constructor; cbn [conns_of]; try discriminate; try apply L'.
        * intros b Hb Hlt'. destruct (k_low _ _ _ _ _ L' b Hb Hlt') as [H|[H|(? & ? & ? & ? & H & Hb')]]; [auto|auto|discriminate].
        * intros z0 n0 t0 ch0 HH. injection HH as <- <- <- <-. exact Hz.
    - (* reply *)
      assert (Hin : In (z, n) (ch ++ (z, n) :: t)) by (apply in_or_app; right; left; reflexivity).
      destruct (k_map _ _ _ _ _ L _ _ Hin) as [Hn Hcase]. destruct (l_ends _ I n Hn) as (Hci & Hsi & Hlt & _). pose proof (k_wait _ _ _ _ _ L _ _ _ _ eq_refl) as Hz.
      assert (Ec : c_client (C s n) = p /\ c_server (C s n) = z) by (destruct Hcase as [?|(? & ? & _)]; [assumption|lia]). destruct Ec as [Ec Es].
      assert (EV : v =? u32 z = true) by (apply Z.eqb_eq; rewrite <- Es; apply (l_served _ I _ _ Hn Hv)). rewrite EV.
      assert (EA : (ch ++ [(z, n)]) ++ t = ch ++ (z, n) :: t) by (rewrite <- app_assoc; reflexivity).
      apply linv_goto; side; rewrite ?EA; try (rewrite E; discriminate).
      + intros ? [].
      + rewrite E. apply incl_refl.
      + intros k Hk Ek Ho Hx. destruct (l_unopened _ I k Hk Ho) as [H1 H2]. rewrite Ek, E in H1, H2. apply in_app_or in Hx. destruct Hx as [Hx|[Hx|[]]]; [apply H1, Hx|].
        injection Hx as _ ->. apply (H2 z t ch). reflexivity.
      + intros k Hk Ek Ho Hx. pose proof (l_unserved _ I k Hk Ho) as H1. rewrite Ek, E in H1. apply in_app_or in Hx. destruct Hx as [Hx|[Hx|[]]]; [apply H1, Hx|].
        injection Hx as _ ->. lia.
      + constructor; cbn [conns_of]; rewrite ?EA; try discriminate; try apply L.
        intros b Hb Hlt'. destruct (k_low _ _ _ _ _ L b Hb Hlt') as [H|[H|(? & ? & ? & ? & H & Hb')]]; [auto|auto|discriminate].
    - (* serve *)
      assert (Hin : In (z, n) (ch ++ (z, n) :: t)) by (apply in_or_app; right; left; reflexivity).
      destruct (k_map _ _ _ _ _ L _ _ Hin) as [Hn Hcase]. destruct (l_ends _ I n Hn) as (Hci & Hsi & Hlt & _).
      assert (Ec : c_client (C s n) = z /\ c_server (C s n) = p) by (destruct Hcase as [[? ?]|(? & ? & _)]; [lia|auto]). destruct Ec as [Ec Es]. subst r.
      assert (EV : v =? u32 z = true) by (apply Z.eqb_eq; rewrite <- Ec; apply (l_opened _ I _ _ Hn Hv)). rewrite EV.
      assert (EA : (ch ++ [(z, n)]) ++ t = ch ++ (z, n) :: t) by (rewrite <- app_assoc; reflexivity).
      apply linv_goto_set; side; rewrite ?EA; auto.
      + intros y. apply (l_hello _ I _ _ Hn).
      + intros k Hk Ek Hz'. assert (Hz0 : c_hello (C s k) = None). { destruct (Nat.eq_dec k n) as [->|Hkn]; [rewrite updn_same in Hz'|rewrite updn_other in Hz' by exact Hkn]; exact Hz'. }
        destruct (l_silent _ I k Hk Hz0) as (? & ? & ? & H). rewrite Ek, E in H. congruence.
      + intros ? [].
      + rewrite E. apply incl_refl.
      + rewrite E. discriminate.
      + intros v0. apply (l_opened _ I _ v0 Hn).
      + intros y Hy. congruence.
      + intros k Hk Ek Ho. assert (Ho' : c_opener (C s k) = None). { destruct (Nat.eq_dec k n) as [->|Hkn]; [rewrite updn_same in Ho|rewrite updn_other in Ho by exact Hkn]; exact Ho. }
        destruct (l_unopened _ I k Hk Ho') as [H1 _]. rewrite Ek, E in H1. split; [|discriminate]. intros Hx. apply in_app_or in Hx. destruct Hx as [Hx|[Hx|[]]]; [apply H1, Hx|].
        injection Hx as _ ->. lia.
      + intros k Hk Ek Ho. destruct (Nat.eq_dec k n) as [->|Hkn]; [rewrite updn_same in Ho; discriminate|]. rewrite updn_other in Ho by exact Hkn.
        pose proof (l_unserved _ I k Hk Ho) as H1. rewrite Ek, E in H1. intros Hx. apply in_app_or in Hx. destruct Hx as [Hx|[Hx|[]]]; [apply H1, Hx|]. congruence.
      + intros L'. rewrite TD, E in L'. constructor; cbn [conns_of]; rewrite ?EA; try discriminate; try apply L'.
        intros b Hb Hlt'. destruct (k_low _ _ _ _ _ L' b Hb Hlt') as [H|[H|(? & ? & ? & ? & H & Hb')]]; [auto|auto|discriminate].
    - (* ready *)
      apply linv_goto; side; try (rewrite E; discriminate).
      + intros ? [].
      + rewrite E. cbn [conns_of]. rewrite app_nil_r. apply incl_refl.
      + intros k Hk Ek Ho. destruct (l_unopened _ I k Hk Ho) as [H1 _]. rewrite Ek, E in H1. exact H1.
      + intros k Hk Ek Ho. pose proof (l_unserved _ I k Hk Ho) as H1. rewrite Ek, E in H1. exact H1.
      + cbn [conns_of] in L. assert (EA : conns_of (Chans [] ch) = ch) by (cbn [conns_of]; apply app_nil_r).
        constructor; cbn [conns_of]; try discriminate.
        * intros z n Hx. apply (k_map _ _ _ _ _ L). rewrite EA. exact Hx.
        * pose proof (k_keys _ _ _ _ _ L) as Hk. rewrite EA in Hk. exact Hk.
        * intros b Hb Hlt'. rewrite <- EA. destruct (k_low _ _ _ _ _ L b Hb Hlt') as [H|[H|(? & ? & ? & ? & H & Hb')]]; [auto|auto|discriminate].
        * pose proof (k_cnt _ _ _ _ _ L) as Hc. rewrite EA in Hc. exact Hc.
        * apply L.
  Qed.

  Lemma linv_reach k s : nsteps w k net0 s -> linv s.
  Proof using HC Hout Hfault Htwo.
    intros H. remember net0 as s0. induction H as [s|k s s' s'' H IH Hs]; subst; [apply linv0|]. eapply linv_pres; [apply IH; reflexivity|exact Hs].
  Qed.

  (** ** Progress *)
  Definition can (s : net) : Prop := exists s', nstep w s s'.
  Lemma ids_range p : In p ids -> 0 <= p < 2 ^ 32. Proof using HC. apply HC. Qed.
  Ltac go c := eexists; eapply c; [|eassumption|..]; try eassumption.
  Section Progress.
    Context (s : net) (I : linv s).

    Lemma hear_can p t m n : In p ids -> At s p = Hear t m n -> can s.
    Proof using HC Hout Hfault Htwo I.
      intros Hp E. pose proof (l_loc _ I p Hp) as L. destruct (k_hear _ _ _ _ _ L _ _ _ E) as (Hn & Es & Ha & _).
      destruct (c_hello (C s n)) as [z|] eqn:Ez; [go n_hear|].
      destruct (l_silent _ I n Hn Ez) as (e & t' & m' & E'). destruct (l_ends _ I n Hn) as (Hc & _).
      eexists. eapply n_greet; [exact Hc|exact E'|reflexivity|right; exact Ha].
    Qed.
    Lemma own_conn p q n : In p ids -> In (q, n) (conns_of (At s p)) -> q < p -> (n < n_next s)%nat /\ c_client (C s n) = p /\ c_server (C s n) = q.
    Proof using HC Hout Hfault Htwo I.
      intros Hp Hin Hlt. pose proof (l_loc _ I p Hp) as L. destruct (k_map _ _ _ _ _ L _ _ Hin) as [Hn Hcase]. destruct (l_ends _ I n Hn) as (_ & _ & H & _).
      destruct Hcase as [[? ?]|(? & ? & _)]; [auto|lia].
    Qed.
    Lemma their_conn p q n : In p ids -> In (q, n) (conns_of (At s p)) -> p < q -> (n < n_next s)%nat /\ c_client (C s n) = q /\ c_server (C s n) = p /\ c_accepted (C s n) = true.
    Proof using HC Hout Hfault Htwo I.
      intros Hp Hin Hlt. pose proof (l_loc _ I p Hp) as L. destruct (k_map _ _ _ _ _ L _ _ Hin) as [Hn Hcase]. destruct (l_ends _ I n Hn) as (_ & _ & H & _).
      destruct Hcase as [[? ?]|(? & ? & ?)]; [lia|auto].
    Qed.
    Definition late (f : phase) : Prop := match f with Chans _ _ | Wait _ _ _ _ | Ready _ => True | _ => False end.
    Lemma late_keys p : In p ids -> late (At s p) -> forall q, In q (keys (conns_of (At s p))) <-> In q ids /\ q <> p.
    Proof using HC Hout Hfault Htwo I.
      intros Hp Hl. pose proof (l_loc _ I p Hp) as L. assert (E : todo_at s p = []) by (unfold todo_at; destruct (At s p); cbn in *; tauto || reflexivity). rewrite E in L.
      apply (all_keys _ _ _ _ Hp L); [destruct (At s p); cbn in *; tauto || reflexivity| |apply (ends3 s I)]. intros e t m n H. rewrite H in Hl. exact Hl.
    Qed.

    Definition dialing (p : Z) : Prop := (exists e t m, At s p = Loop (e :: t) m /\ e_id e < p) \/ exists e t m n, At s p = Dial e t m n.
    Lemma dial_can : forall p, In p ids -> dialing p -> can s.
    Proof using HC Hout Hfault Htwo I.
      intros p. induction p as [p IH] using (well_founded_induction (Z.lt_wf 0)). intros Hp H. pose proof (l_loc _ I p Hp) as L. destruct HC as ((HN & Hr) & Hcf).
      destruct H as [(e & t & m & E & Ee)|(e & t & m & n & E)].
      - assert (TD : todo_at s p = e :: t) by (unfold todo_at; rewrite E; reflexivity). rewrite TD in L. destruct (k_todo _ _ _ _ _ L) as [_ HT].
        assert (He : In e (w_conf w p)) by (apply HT; left; reflexivity). destruct (proj2 (Hcf p Hp) e He) as [Hho Htl].
        assert (Hq : In (e_id e) ids) by (eapply Permutation_in; [apply (Hcf p Hp)|apply in_map, He]).
        destruct (listening (At s (e_id e))) eqn:El; [go n_dial|].
        assert (ED : At s (e_id e) = Down). { pose proof (l_alive _ I (e_id e)) as Hd. destruct (At s (e_id e)); cbn in *; try discriminate; tauto. }
        go n_start.
      - destruct (k_dial _ _ _ _ _ L _ _ _ _ E) as (Hn & Ec & Es & _). destruct (c_accepted (C s n)) eqn:Ea.
        { eexists. eapply n_greet; [exact Hp|exact E|reflexivity|right; exact Ea]. }
        destruct (l_ends _ I n Hn) as (_ & Hq & Hlt & _ & Hnd). rewrite Ec in Hlt. set (q := c_server (C s n)) in *.
        assert (Hrq : 0 <= q < p) by (split; [apply Hr, Hq|exact Hlt]).
        assert (HL : late (At s q) -> False).
        { intros Hl. pose proof (late_keys q Hq Hl p) as Hk. apply proj2 in Hk. specialize (Hk ltac:(split; [exact Hp|lia])). apply keys_in in Hk. destruct Hk as (k & Hk).
          destruct (their_conn q p k Hq Hk ltac:(lia)) as (Hkn & H1 & H2 & H3). assert (k = n) by (apply (l_uniq _ I); auto; congruence). congruence. }
        destruct (At s q) as [|[|e' t'] m'|e' t' m' n'|t' m' n'|m'|t' ch'|z' n' t' ch'|ch'|er] eqn:Eq.
        + congruence.
        + eexists. eapply n_up; [exact Hq|exact Eq].
        + destruct (Z.lt_total (e_id e') q) as [H|[H|H]].
          * apply (IH q); [lia|exact Hq|]. left. exists e', t', m'. auto.
          * go n_skip.
          * eexists. eapply n_accept; [exact Hq|exact Eq|exact H|exact Hn|reflexivity|reflexivity|exact Ea].
        + apply (IH q); [lia|exact Hq|]. right. exists e', t', m', n'. exact Eq.
        + eapply hear_can; eassumption.
        + eexists. eapply n_chans; [exact Hq|exact Eq].
        + destruct (HL Logic.I).
        + destruct (HL Logic.I).
        + destruct (HL Logic.I).
        + pose proof (l_alive _ I q) as Hd. rewrite Eq in Hd. destruct (Hd Logic.I).
    Qed.

    Lemma accept_can : forall p e t m, In p ids -> At s p = Loop (e :: t) m -> p < e_id e -> can s.
    Proof using HC Hout Hfault Htwo I.
      intros p. assert (W : Acc (fun a b => b < a <= 2 ^ 32) p) by (apply (Z.gt_wf (2 ^ 32))). induction W as [p _ IH]. intros e t m Hp E Ee.
      pose proof (l_loc _ I p Hp) as L. assert (TD : todo_at s p = e :: t) by (unfold todo_at; rewrite E; reflexivity). rewrite TD, E in L.
      pose proof (k_cnt _ _ _ _ _ L) as Hc. cbn [conns_of hearing map] in Hc. rewrite above_cons in Hc. destruct (Z.ltb_spec p (e_id e)) as [_|]; [|lia].
      assert (HX : exists q, In q ids /\ p < q /\ ~ In q (keys m)).
      { destruct HC as ((HN & _) & _).
        destruct (Forall_Exists_dec (fun q => In q (keys m)) (fun q => in_dec Z.eq_dec q (keys m)) (filter (Z.ltb p) ids)) as [Hall|Hex].
        - exfalso. assert (Hle : (above p ids <= above p (keys m))%nat); [|lia]. apply NoDup_incl_length; [apply NoDup_filter, HN|].
          intros q Hq. rewrite Forall_forall in Hall. pose proof (Hall q Hq). apply filter_In in Hq. apply filter_In. tauto.
        - apply Exists_exists in Hex. destruct Hex as (q & Hq & Hni). apply filter_In in Hq. exists q. destruct Hq as [Hq Hlt]. apply Z.ltb_lt in Hlt. auto. }
      destruct HX as (q & Hq & Hlt & Hni). pose proof (l_loc _ I q Hq) as Lq.
      destruct (in_dec Z.eq_dec p (map e_id (todo_at s q))) as [Hin|Hnin].
      - unfold todo_at in Hin. destruct (At s q) as [|[|e' t'] m'|e' t' m' n'|t' m' n'|m'|t' ch'|z' n' t' ch'|ch'|er] eqn:Eq; cbn [todo_of map] in Hin; try contradiction.
        + go n_start.
        + destruct (Z.lt_total (e_id e') q) as [H|[H|H]].
          * apply (dial_can q Hq). left. exists e', t', m'. auto.
          * go n_skip.
          * apply (IH q) with (e := e') (t := t') (m := m'); auto. pose proof (ids_range q Hq). lia.
        + apply (dial_can q Hq). right. exists e', t', m', n'. exact Eq.
        + eapply hear_can; eassumption.
      - assert (HX : exists n, (n < n_next s)%nat /\ c_client (C s n) = q /\ c_server (C s n) = p).
        { destruct (k_low _ _ _ _ _ Lq p Hp Hlt) as [H|[H|(e' & t' & m' & n' & H & He')]]; [contradiction| |].
          - apply keys_in in H. destruct H as (n & H). exists n. apply own_conn; assumption.
          - destruct (k_dial _ _ _ _ _ Lq _ _ _ _ H) as (H1 & H2 & H3 & _). exists n'. rewrite H3. auto. }
        destruct HX as (n & Hn & Ec & Es). destruct (c_accepted (C s n)) eqn:Ea.
        + exfalso. destruct (l_acc _ I n Hn Ea) as [H|(? & ? & H)]; rewrite Es, E in H; [|discriminate]. apply Hni, keys_in. exists n. rewrite <- Ec. exact H.
        + eexists. eapply n_accept; [exact Hp|exact E|exact Ee|exact Hn|reflexivity|exact Es|exact Ea].
    Qed.

    Lemma early_can p : In p ids -> ~ late (At s p) -> can s.
    Proof using HC Hout Hfault Htwo I.
      intros Hp Hl. pose proof (l_alive _ I p) as Hd. destruct (At s p) as [|[|e' t'] m'|e' t' m' n'|t' m' n'|m'|t' ch'|z' n' t' ch'|ch'|er] eqn:E; cbn in Hl, Hd; try tauto.
      - go n_start.
      - go n_up.
      - destruct (Z.lt_total (e_id e') p) as [H|[H|H]].
        + apply (dial_can p Hp). left. exists e', t', m'. auto.
        + go n_skip.
        + eapply accept_can; eassumption.
      - apply (dial_can p Hp). right. exists e', t', m', n'. exact E.
      - eapply hear_can; eassumption.
      - go n_chans.
    Qed.

    Lemma srt_after a z n t q k : srt (a ++ (z, n) :: t) -> In (q, k) t -> z < q.
    Proof using.
      unfold srt, keys. rewrite map_app. intros H Hin. induction a as [|x a IH]; cbn [app map fst] in H.
      - inversion H as [|? ? _ HF]; subst. rewrite Forall_forall in HF. apply HF. apply in_map_iff. exists (q, k). auto.
      - inversion H. auto.
    Qed.
    Context (Hlate : forall p, In p ids -> late (At s p)).
    Lemma link p q n : In p ids -> In (q, n) (conns_of (At s p)) -> In q ids /\ q <> p /\ In (p, n) (conns_of (At s q)).
    Proof using HC Hout Hfault Htwo I Hlate.
      intros Hp Hin. assert (Hk : In q (keys (conns_of (At s p)))) by (apply keys_in; eauto). apply (late_keys p Hp (Hlate p Hp)) in Hk. destruct Hk as [Hq Hqp].
      split; [exact Hq|]. split; [exact Hqp|]. assert (Hk' : In p (keys (conns_of (At s q)))) by (apply (late_keys q Hq (Hlate q Hq)); auto). apply keys_in in Hk'. destruct Hk' as (k & Hk').
      replace n with k; [exact Hk'|]. destruct (Z.lt_total q p) as [H|[H|H]]; [|congruence|].
      - destruct (own_conn p q n Hp Hin H) as (H1 & H2 & H3). destruct (their_conn q p k Hq Hk' H) as (G1 & G2 & G3 & _). apply (l_uniq _ I); congruence || lia.
      - destruct (their_conn p q n Hp Hin H) as (H1 & H2 & H3 & _). destruct (own_conn q p k Hq Hk' H) as (G1 & G2 & G3). apply (l_uniq _ I); congruence || lia.
    Qed.
    Lemma serve_can p z n t ch : In p ids -> At s p = Chans ((z, n) :: t) ch -> p < z ->
      (forall z' q n' t' ch', z' < p -> In q ids -> At s q = Wait z' n' t' ch' -> can s) -> can s.
    Proof using HC Hout Hfault Htwo I Hlate.
      intros Hp E Hz HW. destruct (c_opener (C s n)) as [v|] eqn:Eo; [eexists; eapply n_serve; [exact Hp|exact E|lia|reflexivity|exact Eo]|].
      assert (Hin : In (z, n) (conns_of (At s p))) by (rewrite E; apply in_or_app; right; left; reflexivity).
      destruct (link p z n Hp Hin) as (Hzi & _ & Hin'). destruct (their_conn p z n Hp Hin Hz) as (Hn & Ec & Es & _).
      destruct (l_unopened _ I n Hn Eo) as [U1 U2]. rewrite Ec, Es in *. pose proof (k_keys _ _ _ _ _ (l_loc _ I z Hzi)) as HK. pose proof (Hlate z Hzi) as HL.
      destruct (At s z) as [| | | | |[|[z3 n3] t3] ch3|z3 n3 t3 ch3|ch3|] eqn:Ez; cbn [late] in HL; try contradiction; cbn [conns_of chs_of] in *.
      - rewrite app_nil_r in Hin'. contradiction.
      - apply in_app_or in Hin'. destruct Hin' as [?|[H|H]]; [contradiction|injection H as -> ->|].
        + eexists. eapply n_open; [exact Hzi|exact Ez|lia|reflexivity].
        + pose proof (srt_after _ _ _ _ _ _ HK H). eexists. eapply n_open; [exact Hzi|exact Ez|lia|reflexivity].
      - apply in_app_or in Hin'. destruct Hin' as [?|[H|H]]; [contradiction|injection H as -> ->; exfalso; eapply U2; reflexivity|].
        pose proof (srt_after _ _ _ _ _ _ HK H). eapply (HW z3 z); eassumption.
    Qed.
    Lemma wait_can : forall z p n t ch, In p ids -> At s p = Wait z n t ch -> can s.
    Proof using HC Hout Hfault Htwo I Hlate.
      intros z. destruct (Z.neg_nonneg_cases z) as [Hneg|Hpos].
      { intros p n t ch Hp E. exfalso. assert (Hin : In (z, n) (conns_of (At s p))) by (rewrite E; apply in_or_app; right; left; reflexivity).
        destruct (link p z n Hp Hin) as (Hzi & _). pose proof (ids_range z Hzi). lia. }
      clear Hpos. induction z as [z IH] using (well_founded_induction (Z.lt_wf 0)). intros p n t ch Hp E.
      destruct (c_acceptor (C s n)) as [v|] eqn:Ea; [go n_reply|].
      assert (Hin : In (z, n) (conns_of (At s p))) by (rewrite E; apply in_or_app; right; left; reflexivity).
      assert (Hz : z < p) by (eapply (k_wait _ _ _ _ _ (l_loc _ I p Hp)); exact E).
      destruct (link p z n Hp Hin) as (Hzi & _ & Hin'). destruct (own_conn p z n Hp Hin Hz) as (Hn & Ec & Es). pose proof (ids_range z Hzi) as Hzr.
      assert (IH' : forall z' q n' t' ch', z' < z -> In q ids -> At s q = Wait z' n' t' ch' -> can s).
      { intros z' q n' t' ch' Hlt Hq Eq. apply (IH z') with (p := q) (n := n') (t := t') (ch := ch'); auto. split; [|exact Hlt].
        assert (Hin2 : In (z', n') (conns_of (At s q))) by (rewrite Eq; apply in_or_app; right; left; reflexivity).
        destruct (link q z' n' Hq Hin2) as (H & _). pose proof (ids_range z' H). lia. }
      pose proof (l_unserved _ I n Hn Ea) as U. rewrite Ec, Es in U. pose proof (Hlate z Hzi) as HL.
      destruct (At s z) as [| | | | |[|[z3 n3] t3] ch3|z3 n3 t3 ch3|ch3|] eqn:Ez; cbn [late] in HL; try contradiction; cbn [conns_of chs_of] in *.
      - rewrite app_nil_r in Hin'. contradiction.
      - assert (Hin3 : In (z3, n3) (conns_of (At s z))) by (rewrite Ez; apply in_or_app; right; left; reflexivity).
        destruct (link z z3 n3 Hzi Hin3) as (_ & Hne & _). destruct (Z.lt_ge_cases z3 z) as [H|H].
        + eexists. eapply n_open; [exact Hzi|exact Ez|exact H|reflexivity].
        + eapply serve_can; [exact Hzi|exact Ez|lia|exact IH'].
      - eapply IH'; [|exact Hzi|exact Ez]. eapply (k_wait _ _ _ _ _ (l_loc _ I z Hzi)). exact Ez.
    Qed.
    Lemma late_can p : In p ids -> (forall ch, At s p <> Ready ch) -> can s.
    Proof using HC Hout Hfault Htwo I Hlate.
      intros Hp Hr. pose proof (Hlate p Hp) as HL. destruct (At s p) as [| | | | |[|[z n] t] ch|z n t ch|ch|] eqn:E; cbn [late] in HL; try contradiction.
      - go n_ready.
      - assert (Hin : In (z, n) (conns_of (At s p))) by (rewrite E; apply in_or_app; right; left; reflexivity).
        destruct (link p z n Hp Hin) as (_ & Hne & _). destruct (Z.lt_ge_cases z p) as [H|H].
        + eexists. eapply n_open; [exact Hp|exact E|exact H|reflexivity].
        + eapply serve_can; [exact Hp|exact E|lia|]. intros z' q n' t' ch' _ Hq Eq. eapply wait_can; eassumption.
      - eapply wait_can; eassumption.
      - destruct (Hr ch eq_refl).
    Qed.
  End Progress.

  Lemma progress s : linv s -> wired w s \/ can s.
  Proof using HC Hout Hfault Htwo.
    intros I. assert (DL : forall f, {late f} + {~ late f}) by (intros []; cbn; auto).
    destruct (Forall_Exists_dec (fun p => late (At s p)) (fun p => DL (At s p)) ids) as [Hall|Hex].
    2:{ right. apply Exists_exists in Hex. destruct Hex as (p & Hp & H). eapply early_can; eassumption. }
    rewrite Forall_forall in Hall.
    assert (DR : forall f, {exists ch, f = Ready ch} + {forall ch, f <> Ready ch}) by (intros []; try (right; discriminate); left; eauto).
    destruct (Forall_Exists_dec (fun p => exists ch, At s p = Ready ch) (fun p => match DR (At s p) with left H => left H | right H => right (fun '(ex_intro _ ch E) => H ch E) end) ids) as [Hrdy|Hex].
    2:{ right. apply Exists_exists in Hex. destruct Hex as (p & Hp & H). apply (late_can s I Hall p Hp). intros ch E. apply H. eauto. }
    left. rewrite Forall_forall in Hrdy. intros p Hp. destruct (Hrdy p Hp) as (ch & E). exists ch. split; [exact E|].
    assert (EC : conns_of (At s p) = ch) by (rewrite E; reflexivity).
    split; [fold (keys ch); rewrite <- EC; apply srt_nodup, (k_keys _ _ _ _ _ (l_loc _ I p Hp))|].
    split; [intros q; fold (keys ch); rewrite <- EC; apply (late_keys s I p Hp (Hall p Hp))|].
    intros q n Hin. rewrite <- EC in Hin. destruct (link s I Hall p q n Hp Hin) as (Hq & Hne & Hin'). split.
    - destruct (Z.lt_total q p) as [H|[H|H]]; [|congruence|].
      + destruct (own_conn s I p q n Hp Hin H) as (H1 & H2 & H3). left. auto.
      + destruct (their_conn s I p q n Hp Hin H) as (H1 & H2 & H3 & _). right. auto.
    - destruct (Hrdy q Hq) as (ch' & E'). exists ch'. split; [exact E'|]. rewrite E' in Hin'. exact Hin'.
  Qed.

  Lemma nsteps_app k k' s s' s'' : nsteps w k s s' -> nsteps w k' s' s'' -> nsteps w (k + k') s s''.
  Proof.
    intros H H'. revert H. induction H' as [x|j x y z H' IH Hs]; intros H; [rewrite Nat.add_0_r; exact H|]. rewrite Nat.add_succ_r. econstructor; [apply IH, H|exact Hs].
  Qed.
  Theorem setup_completes k s : nsteps w k net0 s ->
    (k <= total w net0)%nat /\ (nstuck w s -> wired w s) /\ exists k' s', nsteps w k' s s' /\ wired w s'.
  Proof using HC Hout Hfault Htwo.
    intros H. assert (HN : NoDup ids) by apply HC. pose proof (linv_reach k s H) as I. pose proof (steps_total w k net0 s HN Hout H) as HT. split; [lia|]. split.
    - intros Hst. destruct (progress s I) as [Hw|(s' & Hs)]; [exact Hw|destruct (Hst _ Hs)].
    - clear H HT. remember (total w s) as N eqn:EN. revert s I EN. induction N as [N IH] using lt_wf_ind. intros s I EN.
      destruct (progress s I) as [Hw|(s' & Hs)]; [exists 0%nat, s; split; [constructor|exact Hw]|].
      pose proof (step_total w s s' HN Hout Hs). destruct (IH (total w s') ltac:(lia) s' (linv_pres s s' I Hs) eq_refl) as (k' & s'' & H1 & H2).
      exists (1 + k')%nat, s''. split; [|exact H2]. eapply nsteps_app; [|exact H1]. econstructor; [constructor|exact Hs].
  Qed.
  Lemma total0 : total w net0 = (length ids * (4 * length ids + 5))%nat.
  Proof using HC Htwo.
    unfold total. cbn [n_at net0 weight]. destruct HC as (_ & Hcf).
    assert (H : forall l, incl l ids -> list_sum (map (fun p => 4 * length (w_conf w p) + 5) l)%nat = (length l * (4 * length ids + 5))%nat).
    { induction l as [|p l IH]; intros Hi; [reflexivity|]. cbn [map list_sum fold_right length]. fold (list_sum (map (fun p => 4 * length (w_conf w p) + 5) l)%nat).
      rewrite IH by (intros x Hx; apply Hi; right; exact Hx). pose proof (Permutation_length (proj1 (Hcf p (Hi p (or_introl eq_refl))))) as E. rewrite map_length in E. rewrite E. lia. }
    apply H, incl_refl.
  Qed.
End Live.
