(** How a program's registers and MACs depend on the key when products are off, and how many keys and coefficients let that pass. *)
From Verif Require Import Base Ring RingProofs Prog Sched Conc Rng Rel Net BitArith BinProofs Aby3 MpcSpec ShareSpec Aby3Proofs SacrificeProofs MacSpec MacCount Client SlicedProofs Session SessionProofs Aby3Mal Aby3MalProofs SpdzMalSpec.
From Coq Require Import ZifyBool ZifyNat Znumtheory.

(** Value, and the MAC as a function A + B * key *)
Record sreg := SReg { sv : Z; sA : Z; sB : Z }.
Record sitem := SItem { iz : Z; idf : Z; iA : Z; iB : Z }.
Fixpoint sym_products (U : Z) (l : list (Z * (Z * Z))) (offs : list (Z * Z)) : option (list (Z * Z) * (list sreg * list sitem)) :=
  match l with
  | [] => Some (offs, ([], []))
  | (z, (a, b)) :: t =>
      match offs with
      | (d, d') :: o => obind (sym_products U t o) (fun p => Some (fst p, (SReg ((z + d) mod 2 ^ U) (a + d') b :: fst (snd p), SItem z d (a + d') (b - z) :: snd (snd p))))
      | [] => None
      end
  end.
Definition sdot2 (x y : list sreg) : Z * (Z * Z) := (dotp (map sv x) (map sv y), (dotp (map sA x) (map sv y), dotp (map sB x) (map sv y))).
Definition sym_cmd (U : Z) (c : cmd) (offs : list (Z * Z)) (m : list sreg * list sitem) : option (list (Z * Z) * (list sreg * list sitem)) :=
  let (rs, q) := m in
  let rd n := nth_error rs n in
  let result v a b := Some (offs, (rs ++ [SReg (v mod 2 ^ U) a b], q)) in
  let multiply l := obind (sym_products U l offs) (fun p => Some (fst p, (rs ++ fst (snd p), q ++ snd (snd p)))) in
  match c with
  | CAdd a b => obind (rd a) (fun x => obind (rd b) (fun y => result (sv x + sv y) (sA x + sA y) (sB x + sB y)))
  | CSub a b => obind (rd a) (fun x => obind (rd b) (fun y => result (sv x - sv y) (sA x - sA y) (sB x - sB y)))
  | CAddConst a c => obind (rd a) (fun x => result (sv x + c) (sA x) (sB x + c))
  | CSubConst a c => obind (rd a) (fun x => result (sv x - c) (sA x) (sB x - c))
  | CMulConst a c => obind (rd a) (fun x => result (sv x * c) (sA x * c) (sB x * c))
  | CMul a b => obind (rd a) (fun x => obind (rd b) (fun y => multiply [(sv x * sv y, (sA x * sv y, sB x * sv y))]))
  | CDot a b => guard (Nat.eqb (length a) (length b)) (obind (gets rs a) (fun x => obind (gets rs b) (fun y => multiply [sdot2 x y])))
  | CDotMany a b => guard (Nat.eqb (length a) (length b)) (obind (getss rs a) (fun xs => obind (getss rs b) (fun ys => multiply (map2 sdot2 xs ys))))
  | _ => None
  end.
Fixpoint sym_eval (U : Z) (cs : list cmd) (offs : list (Z * Z)) (m : list sreg * list sitem) : option (list (Z * Z) * (list sreg * list sitem)) :=
  match cs with [] => Some (offs, m) | c :: t => obind (sym_cmd U c offs m) (fun om => sym_eval U t (fst om) (snd om)) end.

Lemma dvd_mod K U a b : 0 <= K <= U -> (2 ^ K | a - b) -> (2 ^ K | a mod 2 ^ U - b).
Proof.
  intros HK D. assert (P : 0 < 2 ^ U) by (apply Z.pow_pos_nonneg; lia). rewrite Zmod_eq_full by lia.
  replace (a - a / 2 ^ U * 2 ^ U - b) with ((a - b) - a / 2 ^ U * 2 ^ U) by ring. apply Z.divide_sub_r; [exact D|]. apply Z.divide_mul_r.
  exists (2 ^ (U - K)). rewrite <- Z.pow_add_r by lia. f_equal. lia.
Qed.
Lemma gets_rel {A B} (R : A -> B -> Prop) l l' ns xs : Forall2 R l l' -> gets l ns = Some xs -> exists ys, gets l' ns = Some ys /\ Forall2 R xs ys.
Proof.
  intros F. unfold gets. revert xs. induction ns as [|n ns IH]; cbn; intros xs E; [injection E as <-; exists []; split; [reflexivity|constructor]|].
  destruct (nth_error l n) as [u|] eqn:EN; [|discriminate]. destruct (all_some (map (nth_error l) ns)) as [w|]; [|discriminate]. injection E as <-.
  destruct (IH w eq_refl) as (ys & -> & FY). assert (HN : exists u', nth_error l' n = Some u' /\ R u u').
  { clear -F EN. revert n EN. induction F as [|a b l l' HR F IH]; intros [|n] E; try discriminate; cbn in *; [injection E as <-; eauto|apply IH, E]. }
  destruct HN as (u' & -> & HR). exists (u' :: ys). split; [reflexivity|constructor; assumption].
Qed.
Lemma nth_rel {A B} (R : A -> B -> Prop) l l' n u : Forall2 R l l' -> nth_error l n = Some u -> exists u', nth_error l' n = Some u' /\ R u u'.
Proof. intros F. revert n. induction F as [|a b l l' HR F IH]; intros [|n] E; try discriminate; cbn in *; [injection E as <-; eauto|apply IH, E]. Qed.

Lemma getss_rel {A B} (R : A -> B -> Prop) l l' ns xs : Forall2 R l l' -> getss l ns = Some xs -> exists ys, getss l' ns = Some ys /\ Forall2 (Forall2 R) xs ys.
Proof.
  intros F. unfold getss. revert xs. induction ns as [|n ns IH]; cbn; intros xs E; [injection E as <-; exists []; split; [reflexivity|constructor]|].
  destruct (gets l n) as [u|] eqn:EN; [|discriminate]. destruct (all_some (map (gets l) ns)) as [w|]; [|discriminate]. injection E as <-.
  destruct (IH w eq_refl) as (ys & -> & FY). destruct (gets_rel R _ _ _ _ F EN) as (u' & -> & HR). exists (u' :: ys). split; [reflexivity|constructor; assumption].
Qed.

Section S.
  Variables (U r : Z).
  Hypothesis HU : 0 <= U.
  Definition regR (x : Z * Z) (s : sreg) : Prop := fst x = sv s /\ (2 ^ U | snd x - (sA s + sB s * r)).
  Definition itemR (x : item) (s : sitem) : Prop := it_value x = iz s /\ it_off x = idf s /\ (2 ^ U | it_mac_off x - (iA s + iB s * r)).
  Lemma dotp_rel xs : forall ys xs' ys', Forall2 regR xs xs' -> Forall2 regR ys ys' ->
    dotp (map fst xs) (map fst ys) = dotp (map sv xs') (map sv ys') /\
    (2 ^ U | dotp (map snd xs) (map fst ys) - (dotp (map sA xs') (map sv ys') + dotp (map sB xs') (map sv ys') * r)).
  Proof using Type.
    induction xs as [|x xs IH]; intros ys xs' ys' F F'; inversion F as [|? x' ? xs0 [E D] F0]; subst; [split; [reflexivity|exists 0; reflexivity]|].
    inversion F' as [|y y' ys0 ys1 [E' D'] F1]; subst; [split; [reflexivity|exists 0; reflexivity]|].
    destruct (IH _ _ _ F0 F1) as [I1 I2]. cbn [map]. rewrite !dotp_cons. rewrite <- I1, E, E'. split; [reflexivity|].
    replace (snd x * sv y' + dotp (map snd xs) (map fst ys0) - (sA x' * sv y' + dotp (map sA xs0) (map sv ys1) + (sB x' * sv y' + dotp (map sB xs0) (map sv ys1)) * r))
      with ((snd x - (sA x' + sB x' * r)) * sv y' + (dotp (map snd xs) (map fst ys0) - (dotp (map sA xs0) (map sv ys1) + dotp (map sB xs0) (map sv ys1) * r))) by ring.
    apply Z.divide_add_r; [apply Z.divide_mul_l, D|exact I2].
  Qed.
  Definition prodR (x : Z * Z) (s : Z * (Z * Z)) : Prop := fst x = fst s /\ (2 ^ U | snd x - (fst (snd s) + snd (snd s) * r)).
  Lemma products_rel xs ss : Forall2 prodR xs ss -> forall offs o new items, products U r xs offs = Some (o, (new, items)) ->
    exists new' items', sym_products U ss offs = Some (o, (new', items')) /\ Forall2 regR new new' /\ Forall2 itemR items items'.
  Proof using HU.
    induction 1 as [|[z m] [z' [a b]] xs ss [E D] F IH]; intros offs o new items; cbn [products sym_products]; [intros [= <- <- <-]; do 2 eexists; repeat split; constructor|].
    cbn [fst snd] in E, D. subst z'. destruct offs as [|[d d'] o']; [discriminate|]. unfold obind. destruct (products U r xs o') as [[o1 [n1 i1]]|] eqn:EP; [|discriminate]. cbn [fst snd]. intros [= <- <- <-].
    destruct (IH _ _ _ _ EP) as (n2 & i2 & -> & F1 & F2). do 2 eexists. split; [reflexivity|]. cbn [fst snd]. split; (constructor; [|assumption]).
    - split; [reflexivity|]. cbn. apply dvd_mod; [lia|]. replace (m + d' - (a + d' + b * r)) with (m - (a + b * r)) by ring. exact D.
    - split; [reflexivity|]. split; [reflexivity|]. cbn. replace (m + d' - z * r - (a + d' + (b - z) * r)) with (m - (a + b * r)) by ring. exact D.
  Qed.
  Lemma dot2_rel x y x' y' : Forall2 regR x x' -> Forall2 regR y y' -> prodR (dot2 x y) (sdot2 x' y').
  Proof using Type. intros F F'. exact (dotp_rel _ _ _ _ F F'). Qed.
  Lemma dots_rel xs xs' : Forall2 (Forall2 regR) xs xs' -> forall ys ys', Forall2 (Forall2 regR) ys ys' -> Forall2 prodR (map2 dot2 xs ys) (map2 sdot2 xs' ys').
  Proof using Type. induction 1 as [|x x' xs xs' HR F IH]; intros ys ys' F'; [constructor|]. inversion F'; subst; cbn [map2]; constructor; [apply dot2_rel; assumption|apply IH; assumption]. Qed.
  Lemma sym_cmd_rel c offs rs q l lq o rs' q' : Forall2 regR rs l -> Forall2 itemR q lq -> off_cmd U r c offs (rs, q) = Some (o, (rs', q')) ->
    exists l' lq', sym_cmd U c offs (l, lq) = Some (o, (l', lq')) /\ Forall2 regR rs' l' /\ Forall2 itemR q' lq'.
  Proof using HU.
    intros F FQ. unfold off_cmd, sym_cmd, obind, guard.
    assert (LIN : forall v m a b, (2 ^ U | m - (a + b * r)) -> Some (offs, (rs ++ [(v mod 2 ^ U, m mod 2 ^ U)], q)) = Some (o, (rs', q')) ->
      exists l' lq', Some (offs, (l ++ [SReg (v mod 2 ^ U) a b], lq)) = Some (o, (l', lq')) /\ Forall2 regR rs' l' /\ Forall2 itemR q' lq').
    { intros v m a b D E. injection E as <- <- <-. do 2 eexists. split; [reflexivity|]. split; [|exact FQ]. apply Forall2_app; [exact F|]. constructor; [|constructor]. split; [reflexivity|]. cbn. apply dvd_mod; [lia|exact D]. }
    assert (PRD : forall zs ss, Forall2 prodR zs ss ->
      match products U r zs offs with Some x => Some (fst x, (rs ++ fst (snd x), q ++ snd (snd x))) | None => None end = Some (o, (rs', q')) ->
      exists l' lq', match sym_products U ss offs with Some x => Some (fst x, (l ++ fst (snd x), lq ++ snd (snd x))) | None => None end = Some (o, (l', lq')) /\ Forall2 regR rs' l' /\ Forall2 itemR q' lq').
    { intros zs ss FP. destruct (products U r zs offs) as [[o1 [n1 i1]]|] eqn:EP; [|discriminate]. destruct (products_rel _ _ FP _ _ _ _ EP) as (n2 & i2 & -> & F1 & F2). cbn [fst snd]. intros [= <- <- <-].
      do 2 eexists. split; [reflexivity|]. split; apply Forall2_app; assumption. }
    destruct c; try discriminate.
    1,2,6: destruct (nth_error rs m) as [x|] eqn:E1; [|discriminate]; destruct (nth_rel _ _ _ _ _ F E1) as (x' & -> & V1 & D1);
      destruct (nth_error rs n) as [y|] eqn:E2; [|discriminate]; destruct (nth_rel _ _ _ _ _ F E2) as (y' & -> & V2 & D2); rewrite V1, V2.
    - apply LIN. replace (snd x + snd y - (sA x' + sA y' + (sB x' + sB y') * r)) with ((snd x - (sA x' + sB x' * r)) + (snd y - (sA y' + sB y' * r))) by ring. apply Z.divide_add_r; assumption.
    - apply LIN. replace (snd x - snd y - (sA x' - sA y' + (sB x' - sB y') * r)) with ((snd x - (sA x' + sB x' * r)) - (snd y - (sA y' + sB y' * r))) by ring. apply Z.divide_sub_r; assumption.
    - apply PRD. constructor; [|constructor]. split; [reflexivity|]. cbn [fst snd]. replace (snd x * sv y' - (sA x' * sv y' + sB x' * sv y' * r)) with ((snd x - (sA x' + sB x' * r)) * sv y') by ring. apply Z.divide_mul_l; assumption.
    - destruct (nth_error rs m) as [x|] eqn:E1; [|discriminate]; destruct (nth_rel _ _ _ _ _ F E1) as (x' & -> & V1 & D1); rewrite V1. apply LIN.
      match goal with |- (_ | ?t) => replace t with (snd x - (sA x' + sB x' * r)) by ring end. exact D1.
    - destruct (nth_error rs m) as [x|] eqn:E1; [|discriminate]; destruct (nth_rel _ _ _ _ _ F E1) as (x' & -> & V1 & D1); rewrite V1. apply LIN.
      match goal with |- (_ | ?t) => replace t with (snd x - (sA x' + sB x' * r)) by ring end. exact D1.
    - destruct (nth_error rs m) as [x|] eqn:E1; [|discriminate]; destruct (nth_rel _ _ _ _ _ F E1) as (x' & -> & V1 & D1); rewrite V1. apply LIN.
      match goal with |- (_ | ?t) => replace t with ((snd x - (sA x' + sB x' * r)) * c) by ring end. apply Z.divide_mul_l, D1.
    - destruct (Nat.eqb (length ms) (length ns)); [|discriminate].
      destruct (gets rs ms) as [x|] eqn:E1; [|discriminate]; destruct (gets_rel _ _ _ _ _ F E1) as (x' & -> & R1);
      destruct (gets rs ns) as [y|] eqn:E2; [|discriminate]; destruct (gets_rel _ _ _ _ _ F E2) as (y' & -> & R2).
      apply PRD. constructor; [|constructor]. apply dot2_rel; assumption.
    - destruct (Nat.eqb (length ms) (length ns)); [|discriminate].
      destruct (getss rs ms) as [x|] eqn:E1; [|discriminate]; destruct (getss_rel _ _ _ _ _ F E1) as (x' & -> & R1).
      destruct (getss rs ns) as [y|] eqn:E2; [|discriminate]; destruct (getss_rel _ _ _ _ _ F E2) as (y' & -> & R2).
      apply PRD. apply dots_rel; assumption.
  Qed.
  Lemma sym_eval_rel cs : forall offs rs q l lq o rs' q', Forall2 regR rs l -> Forall2 itemR q lq -> off_eval U r cs offs (rs, q) = Some (o, (rs', q')) ->
    exists l' lq', sym_eval U cs offs (l, lq) = Some (o, (l', lq')) /\ Forall2 regR rs' l' /\ Forall2 itemR q' lq'.
  Proof using HU.
    induction cs as [|c cs IH]; intros offs rs q l lq o rs' q' F FQ; cbn [off_eval sym_eval]; [intros [= <- <- <-]; eauto|].
    unfold obind. destruct (off_cmd U r c offs (rs, q)) as [[o1 [rs1 q1]]|] eqn:E; [|discriminate]. cbn [fst snd].
    destruct (sym_cmd_rel _ _ _ _ _ _ _ _ _ F FQ E) as (l1 & lq1 & -> & F1 & FQ1). cbn [fst snd]. apply IH; assumption.
  Qed.
  Lemma start_rel vs : Forall2 regR (with_mac U r vs) (map (fun v => SReg v 0 v) vs).
  Proof using HU.
    induction vs as [|v vs IH]; cbn; constructor; [|exact IH]. split; [reflexivity|]. cbn. apply dvd_mod; [lia|]. exists 0. ring.
  Qed.
End S.

Section T.
  Variables (K U : Z).
  Hypothesis HK : 0 <= K <= U.
  (** while no product is off modulo 2^K, the MACs' dependence on the key is that of the values *)
  Definition good (s : sreg) : Prop := (2 ^ K | sv s - sB s).
  Lemma dotp_good xs : forall ys, Forall good xs -> (2 ^ K | dotp (map sB xs) (map sv ys) - dotp (map sv xs) (map sv ys)).
  Proof using Type.
    induction xs as [|x xs IH]; intros ys F; [exists 0; reflexivity|]. destruct ys as [|y ys]; [exists 0; reflexivity|]. inversion F; subst. cbn [map]. rewrite !dotp_cons.
    match goal with |- (_ | ?t) => replace t with ((dotp (map sB xs) (map sv ys) - dotp (map sv xs) (map sv ys)) - (sv x - sB x) * sv y) by ring end.
    apply Z.divide_sub_r; [apply IH; assumption|apply Z.divide_mul_l; assumption].
  Qed.
  Lemma sym_products_good ss : forall offs o new items, sym_products U ss offs = Some (o, (new, items)) ->
    exists used, offs = used ++ o /\ map idf items = map fst used /\
      (Forall (fun p => (2 ^ K | snd (snd p) - fst p)) ss -> Forall (fun a => (2 ^ K | iB a)) items /\ (Forall (fun x => (2 ^ K | fst x)) used -> Forall good new)).
  Proof using HK.
    induction ss as [|[z [a b]] ss IH]; intros offs o new items; cbn [sym_products]; [intros [= <- <- <-]; exists []; repeat split; constructor|].
    destruct offs as [|[d d'] o']; [discriminate|]. unfold obind. destruct (sym_products U ss o') as [[o1 [n1 i1]]|] eqn:EP; [|discriminate]. cbn [fst snd]. intros [= <- <- <-].
    destruct (IH _ _ _ _ EP) as (used & -> & EM & HG). exists ((d, d') :: used). split; [reflexivity|]. split; [cbn; congruence|].
    intros F. inversion F as [|? ? F1 F2]; subst. cbn [fst snd] in F1. destruct (HG F2) as [G1 G2]. split; [constructor; assumption|].
    intros FD. inversion FD as [|? ? D1 D2]; subst. cbn [fst] in D1. constructor; [|exact (G2 D2)]. unfold good. cbn. apply dvd_mod; [exact HK|].
    replace (z + d - b) with (d - (b - z)) by ring. apply Z.divide_sub_r; assumption.
  Qed.
  Lemma gets_good l ns x : gets l ns = Some x -> Forall good l -> Forall good x.
  Proof using Type.
    intros E1 F. unfold gets in E1. revert x E1. induction ns as [|n ns IH]; cbn; intros x E; [injection E as <-; constructor|].
    destruct (nth_error l n) as [u|] eqn:EN; [|discriminate]. destruct (all_some (map (nth_error l) ns)) as [w|]; [|discriminate]. injection E as <-.
    constructor; [|apply IH; reflexivity]. rewrite Forall_forall in F. apply F. eapply nth_error_In, EN.
  Qed.
  Lemma getss_good l ns xs : getss l ns = Some xs -> Forall good l -> Forall (Forall good) xs.
  Proof using Type.
    intros E1 F. unfold getss in E1. revert xs E1. induction ns as [|n ns IH]; cbn; intros x E; [injection E as <-; constructor|].
    destruct (gets l n) as [u|] eqn:EN; [|discriminate]. destruct (all_some (map (gets l) ns)) as [w|]; [|discriminate]. injection E as <-.
    constructor; [eapply gets_good; eassumption|apply IH; reflexivity].
  Qed.
  Lemma dots_good xs : Forall (Forall good) xs -> forall ys, Forall (fun p => (2 ^ K | snd (snd p) - fst p)) (map2 sdot2 xs ys).
  Proof using Type. induction 1 as [|x xs Hx F IH]; intros [|y ys]; cbn [map2]; constructor; [exact (dotp_good x y Hx)|apply IH]. Qed.
  Lemma sym_cmd_good c offs l lq o l' lq' : sym_cmd U c offs (l, lq) = Some (o, (l', lq')) ->
    exists used new, offs = used ++ o /\ lq' = lq ++ new /\ map idf new = map fst used /\
      (Forall good l -> Forall (fun a => (2 ^ K | iB a)) new /\ (Forall (fun x => (2 ^ K | fst x)) used -> Forall good l')).
  Proof using HK.
    unfold sym_cmd, obind, guard.
    assert (LIN : forall v a b, (Forall good l -> (2 ^ K | v - b)) -> Some (offs, (l ++ [SReg (v mod 2 ^ U) a b], lq)) = Some (o, (l', lq')) -> 
      exists used new, offs = used ++ o /\ lq' = lq ++ new /\ map idf new = map fst used /\ (Forall good l -> Forall (fun a => (2 ^ K | iB a)) new /\ (Forall (fun x => (2 ^ K | fst x)) used -> Forall good l'))).
    { intros v a b D E. injection E as <- <- <-. exists [], []. split; [reflexivity|]. split; [symmetry; apply app_nil_r|]. split; [reflexivity|]. intros F. split; [constructor|]. intros _. apply Forall_app. split; [exact F|]. constructor; [|constructor]. unfold good. cbn. apply dvd_mod; [exact HK|exact (D F)]. }
    assert (PRD : forall ss, (Forall good l -> Forall (fun p => (2 ^ K | snd (snd p) - fst p)) ss) -> 
      match sym_products U ss offs with Some x => Some (fst x, (l ++ fst (snd x), lq ++ snd (snd x))) | None => None end = Some (o, (l', lq')) -> 
      exists used new, offs = used ++ o /\ lq' = lq ++ new /\ map idf new = map fst used /\ (Forall good l -> Forall (fun a => (2 ^ K | iB a)) new /\ (Forall (fun x => (2 ^ K | fst x)) used -> Forall good l'))).
    { intros ss D. destruct (sym_products U ss offs) as [[o1 [n1 i1]]|] eqn:EP; [|discriminate]. cbn [fst snd]. intros [= <- <- <-]. destruct (sym_products_good _ _ _ _ _ EP) as (used & -> & EM & HG).
      exists used, i1. split; [reflexivity|]. split; [reflexivity|]. split; [exact EM|]. intros F. destruct (HG (D F)) as [G1 G2]. split; [exact G1|]. intros FD. apply Forall_app. split; [exact F|exact (G2 FD)]. }
    assert (NG : forall n x, nth_error l n = Some x -> Forall good l -> good x) by (intros n x E F; rewrite Forall_forall in F; apply F; eapply nth_error_In, E).
    destruct c; try discriminate.
    1,2,6: destruct (nth_error l m) as [x|] eqn:E1; [|discriminate]; destruct (nth_error l n) as [y|] eqn:E2; [|discriminate]; pose proof (NG _ _ E1) as G1; pose proof (NG _ _ E2) as G2; unfold good in G1, G2.
    - apply LIN. intros F. specialize (G1 F). specialize (G2 F). replace (sv x + sv y - (sB x + sB y)) with ((sv x - sB x) + (sv y - sB y)) by ring. apply Z.divide_add_r; assumption.
    - apply LIN. intros F. specialize (G1 F). specialize (G2 F). replace (sv x - sv y - (sB x - sB y)) with ((sv x - sB x) - (sv y - sB y)) by ring. apply Z.divide_sub_r; assumption.
    - apply PRD. intros F. specialize (G1 F). specialize (G2 F). constructor; [|constructor]. cbn [fst snd]. replace (sB x * sv y - sv x * sv y) with ((sv x - sB x) * - sv y) by ring. apply Z.divide_mul_l; assumption.
    - destruct (nth_error l m) as [x|] eqn:E1; [|discriminate]; pose proof (NG _ _ E1) as G1; unfold good in G1. apply LIN. intros F. specialize (G1 F). match goal with |- (_ | ?t) => replace t with (sv x - sB x) by ring end. exact G1.
    - destruct (nth_error l m) as [x|] eqn:E1; [|discriminate]; pose proof (NG _ _ E1) as G1; unfold good in G1. apply LIN. intros F. specialize (G1 F). match goal with |- (_ | ?t) => replace t with (sv x - sB x) by ring end. exact G1.
    - destruct (nth_error l m) as [x|] eqn:E1; [|discriminate]; pose proof (NG _ _ E1) as G1; unfold good in G1. apply LIN. intros F. specialize (G1 F). match goal with |- (_ | ?t) => replace t with ((sv x - sB x) * c) by ring end. apply Z.divide_mul_l, G1.
    - destruct (Nat.eqb (length ms) (length ns)); [|discriminate].
      destruct (gets l ms) as [x|] eqn:E1; [|discriminate]. destruct (gets l ns) as [y|] eqn:E2; [|discriminate]. apply PRD. intros F. constructor; [|constructor]. apply dotp_good. eapply gets_good; eassumption.
    - destruct (Nat.eqb (length ms) (length ns)); [|discriminate].
      destruct (getss l ms) as [x|] eqn:E1; [|discriminate]. destruct (getss l ns) as [y|] eqn:E2; [|discriminate]. apply PRD. intros F. apply dots_good. eapply getss_good; eassumption.
  Qed.
  (** The first product that is off modulo 2^K: there the dependence on the key of the MAC's offset vanishes modulo 2^K *)
  Lemma sym_eval_first cs : forall offs l lq l' lq', sym_eval U cs offs (l, lq) = Some ([], (l', lq')) ->
    exists new, lq' = lq ++ new /\ map idf new = map fst offs /\
      (Forall good l -> forall pos a, nth_error new pos = Some a -> (forall q, (q < pos)%nat -> (2 ^ K | fst (nth q offs (0, 0)))) -> (2 ^ K | iB a)).
  Proof using HK.
    induction cs as [|c cs IH]; intros offs l lq l' lq'; cbn [sym_eval].
    - intros [= -> <- <-]. exists []. rewrite app_nil_r. split; [reflexivity|]. split; [reflexivity|]. intros _ [|pos] a E; discriminate.
    - unfold obind. destruct (sym_cmd U c offs (l, lq)) as [[o1 [l1 lq1]]|] eqn:E; [|discriminate]. cbn [fst snd]. intros E'.
      destruct (sym_cmd_good _ _ _ _ _ _ _ E) as (used & it & -> & -> & Ha & HG); destruct (IH _ _ _ _ _ E') as (new & E1 & E2 & E3).
      assert (LU : length it = length used) by (rewrite <- (map_length idf), Ha, map_length; reflexivity).
      exists (it ++ new). split; [rewrite E1, <- app_assoc; reflexivity|]. split; [rewrite !map_app; congruence|]. intros F pos b Eb Hq. destruct (HG F) as [G1 G2].
      destruct (Nat.lt_ge_cases pos (length it)) as [Hlt|Hge].
      + rewrite nth_error_app1 in Eb by exact Hlt. rewrite Forall_forall in G1. apply G1. eapply nth_error_In, Eb.
      + rewrite nth_error_app2 in Eb by exact Hge. apply (E3 ltac:(apply G2; apply Forall_forall; intros x Hx; apply (In_nth _ _ (0, 0)) in Hx; destruct Hx as (q & Hl & <-); specialize (Hq q ltac:(lia)); rewrite app_nth1 in Hq by exact Hl; exact Hq) _ _ Eb).
        intros q Hlt. specialize (Hq (length used + q)%nat ltac:(lia)). rewrite app_nth2_plus in Hq. exact Hq.
  Qed.
End T.

(** The pairs (key, coefficient of item pos) for which the check's relation holds, the program's offsets and the other coefficients being fixed. *)
Definition passes (U : Z) (cs : list cmd) (offs : list (Z * Z)) (vs : list Z) (n pos : nat) (rho : list Z) (e0 e1 e2 : Z) (rc : Z * Z) : bool :=
  match off_eval U (fst rc) cs offs (with_mac U (fst rc) vs, []) with
  | Some ([], (R, q)) => match nth_error R n with
      | Some (v, m) => let q' := q ++ [Item v 0 (m - v * fst rc)] in
          (dotp (with_coef pos (snd rc) rho) (map2 (fun d e => d * fst rc - e) (map it_off q') (map it_mac_off q')) + e0 * fst rc + e2 - e1) mod 2 ^ U =? 0
      | None => false end
  | _ => false end.
Definition bad_runs (U : Z) (cs : list cmd) (offs : list (Z * Z)) (vs : list Z) (n pos : nat) (rho : list Z) (e0 e1 e2 : Z) : list (Z * Z) :=
  filter (passes U cs offs vs n pos rho e0 e1 e2) (list_prod (range_list U) (range_list U)).

Lemma queue_length K U r cs offs vs R q : 0 <= K <= U -> off_eval U r cs offs (with_mac U r vs, []) = Some ([], (R, q)) -> length q = length offs.
Proof.
  intros HK E. destruct (sym_eval_rel U r ltac:(lia) cs _ _ _ _ [] _ _ _ (start_rel U r ltac:(lia) vs) (Forall2_nil _) E) as (l' & lq' & ES & _ & FQ).
  destruct (sym_eval_first K U HK _ _ _ _ _ _ ES) as (new & EQ & EN & _). cbn [app] in EQ. subst lq'. rewrite (Forall2_len _ _ _ FQ), <- (map_length idf), EN, map_length. reflexivity.
Qed.
Lemma bad_runs_few K U cs offs vs n pos rho e0 e1 e2 : 1 <= K <= U -> (pos < length offs)%nat -> length rho = S (length offs) ->
  (forall q, (q < pos)%nat -> fst (nth q offs (0, 0)) mod 2 ^ K = 0) -> fst (nth pos offs (0, 0)) mod 2 ^ K <> 0 ->
  Z.of_nat (length (bad_runs U cs offs vs n pos rho e0 e1 e2)) <= (U + 1) * 2 ^ (U + K - 1).
Proof.
  intros HK Hp HL Hq Hd. set (l := bad_runs U cs offs vs n pos rho e0 e1 e2).
  assert (ND : NoDup l) by (apply NoDup_filter, list_prod_nodup; apply range_list_nodup).
  assert (HF : forall rc, In rc l -> inr U (fst rc) /\ inr U (snd rc) /\ passes U cs offs vs n pos rho e0 e1 e2 rc = true).
  { intros [r c] Hin. apply filter_In in Hin. destruct Hin as [Hin E]. apply in_prod_iff in Hin. split; [apply range_list_inr, Hin|]. split; [apply range_list_inr, Hin|]. exact E. }
  clearbody l. assert (HC : l = [] \/ exists rc, In rc l) by (destruct l as [|rc0 l']; [left; reflexivity|right; exists rc0; left; reflexivity]).
  destruct HC as [->|[rc0 H0]]; [cbn [length]; apply Z.mul_nonneg_nonneg; [lia|apply Z.pow_nonneg; lia]|].
  assert (PK : 2 ^ K <> 0) by (apply Z.pow_nonzero; lia). assert (PU : 2 ^ U <> 0) by (apply Z.pow_nonzero; lia).
  assert (SYM : exists l' lq', sym_eval U cs offs (map (fun v => SReg v 0 v) vs, []) = Some ([], (l', lq'))).
  { destruct (HF rc0 H0) as (_ & _ & E). unfold passes in E. destruct (off_eval U (fst rc0) cs offs (with_mac U (fst rc0) vs, [])) as [[[|? ?] [R q]]|] eqn:EO; try discriminate.
    destruct (sym_eval_rel U (fst rc0) ltac:(lia) cs _ _ _ _ [] _ _ _ (start_rel U (fst rc0) ltac:(lia) vs) (Forall2_nil _) EO) as (l' & lq' & ES & _). eauto. }
  clear rc0 H0. destruct SYM as (l' & lq' & ES).
  destruct (sym_eval_first K U ltac:(lia) _ _ _ _ _ _ ES) as (new & EQ & EN & HB). cbn [app] in EQ. subst lq'.
  assert (LN : length new = length offs) by (rewrite <- (map_length idf), EN, map_length; reflexivity).
  destruct (nth_error new pos) as [a|] eqn:EA; [|apply nth_error_None in EA; lia].
  assert (Da : idf a = fst (nth pos offs (0, 0))).
  { apply (map_nth_error idf) in EA. rewrite EN in EA. apply (nth_error_nth _ _ 0) in EA. rewrite <- EA. change 0 with (fst (0, 0)) at 1. rewrite map_nth. reflexivity. }
  assert (DB : (2 ^ K | iB a)).
  { apply (HB ltac:(apply Forall_forall; intros x Hx; apply in_map_iff in Hx; destruct Hx as (v & <- & _); exists 0; cbn; ring) pos a EA). intros q0 Hlt. apply Z.mod_divide; [exact PK|apply Hq, Hlt]. }
  set (g := fun r => match off_eval U r cs offs (with_mac U r vs, []) with
    | Some ([], (R, q)) => match nth_error R n with
        | Some (v, m) => let q' := q ++ [Item v 0 (m - v * r)] in dotp (with_coef pos 0 rho) (map2 (fun d e => d * r - e) (map it_off q') (map it_mac_off q')) + e0 * r + e2 - e1
        | None => 0 end
    | _ => 0 end).
  apply (pairs_count_fun K U (idf a - iB a) (iA a) g l HK); [|exact ND|].
  { intros E. apply Hd. apply Z.mod_divide in E; [|exact PK]. apply Z.mod_divide; [exact PK|]. rewrite <- Da. replace (idf a) with (idf a - iB a + iB a) by ring. apply Z.divide_add_r; assumption. }
  apply Forall_forall. intros [r c] Hin. destruct (HF _ Hin) as (R1 & R2 & E). cbn [fst snd] in *. split; [exact R1|]. split; [exact R2|].
  unfold passes in E. cbn [fst snd] in E. unfold g. clear g.
  destruct (off_eval U r cs offs (with_mac U r vs, [])) as [[[|? ?] [R q]]|] eqn:EO; try discriminate.
  destruct (nth_error R n) as [[v m]|]; [|discriminate]. cbv zeta in E |- *. apply Z.eqb_eq in E.
  destruct (sym_eval_rel U r ltac:(lia) cs _ _ _ _ [] _ _ _ (start_rel U r ltac:(lia) vs) (Forall2_nil _) EO) as (l2 & lq2 & ES2 & _ & FQ).
  rewrite ES in ES2. injection ES2 as <- <-. pose proof (queue_length K U r cs offs vs R q ltac:(lia) EO) as LQ.
  set (zs := map2 (fun d e => d * r - e) _ _) in E |- *.
  assert (LZ : length zs = length rho) by (unfold zs; rewrite map2_length_eq; rewrite !map_length, ?app_length; cbn [length]; lia).
  rewrite dotp_with in E by lia.
  assert (HN : exists b, nth_error q pos = Some b /\ itemR U r b a).
  { clear -FQ EA. revert pos EA. induction FQ as [|x y q lq HR F IH]; intros [|pos] E; try discriminate; cbn in *; [injection E as <-; eauto|apply IH, E]. }
  destruct HN as (b & Eb & (B1 & B2 & B3)).
  assert (ZN : nth pos zs 0 = it_off b * r - it_mac_off b).
  { apply nth_error_nth. unfold zs. clear -Eb. revert pos Eb. induction q as [|y q IH]; intros [|pos] E; try discriminate; cbn in *; [injection E as <-; reflexivity|apply IH, E]. }
  rewrite ZN, B2 in E. apply Z.mod_divide in E; [|exact PU]. apply Z.mod_divide; [exact PU|].
  match type of E with (_ | ?t) => match goal with |- (_ | ?u) => replace u with (t + (it_mac_off b - (iA a + iB a * r)) * c) by ring end end.
  apply Z.divide_add_r; [exact E|apply Z.divide_mul_l, B3].
Qed.

(** No product off modulo 2^K: what the plain program computes *)
Section P.
  Variables (K U : Z).
  Hypothesis HK : 0 <= K <= U.
  Definition low (x : Z * Z) : Z := fst x mod 2 ^ K.
  Lemma low_dot xs : forall ys, dotp (map fst xs) (map fst ys) mod 2 ^ K = dotp (map low xs) (map low ys) mod 2 ^ K.
  Proof using Type.
    induction xs as [|x xs IH]; intros [|y ys]; try reflexivity. cbn [map]. rewrite !dotp_cons. rewrite Zplus_mod, IH, (Zplus_mod (low x * low y)). do 2 f_equal. apply Zmult_mod.
  Qed.
  Lemma low_nth rs n x : nth_error (map low rs) n = Some x -> exists y, nth_error rs n = Some y /\ x = low y.
  Proof using Type. rewrite nth_error_map. destruct (nth_error rs n); cbn; [intros [= <-]; eauto|discriminate]. Qed.
  Lemma low_gets rs ns : gets (map low rs) ns = option_map (map low) (gets rs ns).
  Proof using Type.
    unfold gets. induction ns as [|n ns IH]; [reflexivity|]. cbn. rewrite nth_error_map, IH. destruct (nth_error rs n); [|reflexivity]. cbn. destruct (all_some (map (nth_error rs) ns)); reflexivity.
  Qed.
  Lemma low_getss rs ns : getss (map low rs) ns = option_map (map (map low)) (getss rs ns).
  Proof using Type.
    unfold getss. induction ns as [|n ns IH]; [reflexivity|]. cbn. rewrite low_gets, IH. destruct (gets rs n); [|reflexivity]. cbn. destruct (all_some (map (gets rs) ns)); reflexivity.
  Qed.
  Lemma low_mod v m : low (v mod 2 ^ U, m) = v mod 2 ^ K.
  Proof using HK. unfold low. cbn [fst]. apply mod_mod_pow, HK. Qed.
  Lemma low_products r zs ws : Forall2 (fun p w => fst p mod 2 ^ K = w) zs ws -> forall offs o new items, products U r zs offs = Some (o, (new, items)) ->
    exists used, offs = used ++ o /\ (Forall (fun x => fst x mod 2 ^ K = 0) used -> map low new = ws).
  Proof using HK.
    induction 1 as [|[z m] w zs ws E F IH]; intros offs o new items; cbn [products]; [intros [= <- <- <-]; exists []; repeat split|].
    destruct offs as [|[d d'] o']; [discriminate|]. unfold obind. destruct (products U r zs o') as [[o1 [n1 i1]]|] eqn:EP; [|discriminate]. cbn [fst snd]. intros [= <- <- <-].
    destruct (IH _ _ _ _ EP) as (used & -> & HG). exists ((d, d') :: used). split; [reflexivity|]. intros FD. inversion FD as [|? ? D1 D2]; subst. cbn [fst] in *. cbn [map]. rewrite (HG D2), low_mod. f_equal. rewrite Zplus_mod, D1, Z.add_0_r, Zmod_mod. reflexivity.
  Qed.
  Lemma low_dots xs : forall ys, Forall2 (fun p w => fst p mod 2 ^ K = w) (map2 dot2 xs ys) (map2 (fun x y => dotp x y mod 2 ^ K) (map (map low) xs) (map (map low) ys)).
  Proof using Type. induction xs as [|x xs IH]; intros [|y ys]; cbn [map map2]; constructor; [apply low_dot|apply IH]. Qed.
  Lemma low_cmd r c offs rs q o R q' p : off_cmd U r c offs (rs, q) = Some (o, (R, q')) -> eval_cmd K c (Mem (map low rs) [] [] []) = Some p ->
    exists used, offs = used ++ o /\ (Forall (fun x => fst x mod 2 ^ K = 0) used -> p = Mem (map low R) [] [] []).
  Proof using HK.
    unfold off_cmd, eval_cmd, obind, guard. cbn [areg breg].
    assert (LIN : forall v w m p, v mod 2 ^ K = w mod 2 ^ K -> Some (offs, (rs ++ [(v mod 2 ^ U, m)], q)) = Some (o, (R, q')) -> Some (pushA (Mem (map low rs) (@nil bool) [] []) [w mod 2 ^ K]) = Some p ->
      exists used, offs = used ++ o /\ (Forall (fun x => fst x mod 2 ^ K = 0) used -> p = Mem (map low R) [] [] [])).
    { intros v w m p0 E. intros [= <- <- <-] [= <-]. exists []. split; [reflexivity|]. intros _. unfold pushA. cbn [areg breg aout bout]. rewrite map_app. cbn [map]. rewrite low_mod, E. reflexivity. }
    assert (PRD : forall zs ws p, Forall2 (fun p w => fst p mod 2 ^ K = w) zs ws ->
      match products U r zs offs with Some x => Some (fst x, (rs ++ fst (snd x), q ++ snd (snd x))) | None => None end = Some (o, (R, q')) -> Some (pushA (Mem (map low rs) (@nil bool) [] []) ws) = Some p ->
      exists used, offs = used ++ o /\ (Forall (fun x => fst x mod 2 ^ K = 0) used -> p = Mem (map low R) [] [] [])).
    { intros zs ws p0 FP. destruct (products U r zs offs) as [[o1 [n1 i1]]|] eqn:EP; [|discriminate]. cbn [fst snd]. intros [= <- <- <-] [= <-].
      destruct (low_products r zs ws FP _ _ _ _ EP) as (used & -> & HG). exists used. split; [reflexivity|]. intros Hd. unfold pushA. cbn [areg breg aout bout]. rewrite map_app, (HG Hd). reflexivity. }
    destruct c; try discriminate.
    1,2,6: destruct (nth_error (map low rs) m) as [x|] eqn:E1; [|discriminate]; destruct (low_nth _ _ _ E1) as (x' & -> & ->);
      destruct (nth_error (map low rs) n) as [y|] eqn:E2; [|discriminate]; destruct (low_nth _ _ _ E2) as (y' & -> & ->).
    - apply LIN. unfold low. apply Zplus_mod.
    - apply LIN. unfold low. apply Zminus_mod.
    - apply PRD. constructor; [|constructor]. unfold low. apply Zmult_mod.
    - destruct (in_range K c); [|discriminate]. destruct (nth_error (map low rs) m) as [x|] eqn:E1; [|discriminate]; destruct (low_nth _ _ _ E1) as (x' & -> & ->). apply LIN. unfold low. modring.
    - destruct (in_range K c); [|discriminate]. destruct (nth_error (map low rs) m) as [x|] eqn:E1; [|discriminate]; destruct (low_nth _ _ _ E1) as (x' & -> & ->). apply LIN. unfold low. modring.
    - destruct (in_range K c); [|discriminate]. destruct (nth_error (map low rs) m) as [x|] eqn:E1; [|discriminate]; destruct (low_nth _ _ _ E1) as (x' & -> & ->). apply LIN. unfold low. modring.
    - destruct (Nat.eqb (length ms) (length ns)); [|discriminate]. destruct (Nat.ltb 0 (length ms)); [|discriminate]. cbn [andb]. rewrite !low_gets.
      destruct (gets rs ms) as [x|]; [|discriminate]. destruct (gets rs ns) as [y|]; [|discriminate]. cbn [option_map]. apply PRD. constructor; [|constructor]. apply low_dot.
    - destruct (Nat.eqb (length ms) (length ns)); [|discriminate]. destruct (same_lens ms ns && Nat.ltb 0 (length ms)); [|discriminate]. rewrite !low_getss.
      destruct (getss rs ms) as [x|]; [|discriminate]. destruct (getss rs ns) as [y|]; [|discriminate]. cbn [option_map]. apply PRD. apply low_dots.
  Qed.
  Lemma low_eval r cs : forall offs rs q R q' p, Forall (fun x => fst x mod 2 ^ K = 0) offs -> off_eval U r cs offs (rs, q) = Some ([], (R, q')) ->
    eval K cs (Mem (map low rs) [] [] []) = Some p -> p = Mem (map low R) [] [] [].
  Proof using HK.
    induction cs as [|c cs IH]; intros offs rs q R q' p F; cbn [off_eval eval].
    - intros [= -> <- <-] [= <-]. reflexivity.
    - unfold obind. destruct (off_cmd U r c offs (rs, q)) as [[o1 [R1 q1]]|] eqn:E; [|discriminate]. cbn [fst snd]. intros E1.
      destruct (eval_cmd K c _) as [p1|] eqn:EP; [|discriminate]. intros E2.
      destruct (low_cmd _ _ _ _ _ _ _ _ _ E EP) as (u1 & -> & H1). apply Forall_app in F. destruct F as [F1 F2]. rewrite (H1 F1) in E2.
      exact (IH _ _ _ _ _ _ F2 E1 E2).
  Qed.
End P.
