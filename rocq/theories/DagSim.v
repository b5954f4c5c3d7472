(** The dependency graph of a program simulates its dependency machine. *)
From Coq Require Import Relations Permutation.
From Verif Require Import Base InstrModel InstrProofs LoweringModel LoweringProofs DagModel DagSpec DagProofs.
Local Open Scope nat_scope.

Lemma ok2_inj {X Y} (a c : X) (b d : Y) : Ok (a, b) = Ok (c, d) -> a = c /\ b = d.
Proof. intros H. injection H. auto. Qed.

(** ** Lists *)
Lemma set_nth_length {B} (v : B) : forall l n, length (set_nth n v l) = length l.
Proof. induction l as [|x l IH]; intros [|n]; cbn; auto. Qed.
Lemma set_nth_same {B} (v : B) : forall l n, n < length l -> nth_error (set_nth n v l) n = Some v.
Proof. induction l as [|x l IH]; intros [|n] H; cbn in *; try lia; [reflexivity|]. apply IH. lia. Qed.
Lemma set_nth_other {B} (v : B) : forall l n m, n <> m -> nth_error (set_nth n v l) m = nth_error l m.
Proof. induction l as [|x l IH]; intros [|n] [|m] H; cbn; try congruence; auto. Qed.
Lemma nth_lt {B} (l : list B) n x : nth_error l n = Some x -> n < length l.
Proof. intros H. apply nth_error_Some. congruence. Qed.
Lemma nth_ex {B} (l : list B) n : n < length l -> exists x, nth_error l n = Some x.
Proof. intros H. destruct (nth_error l n) eqn:X; [eauto|]. apply nth_error_None in X. lia. Qed.
Lemma concat_nth (L : list (list N)) x : In x (concat L) <-> exists i ls, nth_error L i = Some ls /\ In x ls.
Proof.
  rewrite in_concat. split.
  - intros (ls & H & Hx). apply In_nth_error in H. destruct H as [i H]. eauto.
  - intros (i & ls & H & Hx). exists ls. split; [eapply nth_error_In; eauto|exact Hx].
Qed.
Lemma NoDup_app_iff (a b : list N) : NoDup (a ++ b) <-> NoDup a /\ NoDup b /\ (forall x, In x a -> ~ In x b).
Proof.
  induction a as [|x a IH]; cbn [app]; [split; [intros H; split; [constructor|split; [exact H|intros ? []]]|tauto]|].
  split.
  - intros H. inversion H as [|? ? Hx H']; subst. apply IH in H'. destruct H' as (A & B & C). rewrite in_app_iff in Hx.
    split; [constructor; tauto|]. split; [exact B|]. intros y [<-|Hy]; [tauto|auto].
  - intros (A & B & C). inversion A as [|? ? Hx A']; subst. constructor.
    + rewrite in_app_iff. intros [?|?]; [auto|]. apply (C x); [now left|auto].
    + apply IH. split; [exact A'|]. split; [exact B|]. intros y Hy. apply C. now right.
Qed.
Lemma concat_unique : forall (L : list (list N)), NoDup (concat L) -> forall i j li lj x,
  nth_error L i = Some li -> nth_error L j = Some lj -> In x li -> In x lj -> i = j.
Proof.
  induction L as [|l L IH]; intros ND i j li lj x Hi Hj Xi Xj; [destruct i; discriminate|].
  cbn [concat] in ND. apply NoDup_app_iff in ND. destruct ND as (A & B & C).
  destruct i as [|i], j as [|j]; cbn in Hi, Hj; [reflexivity|..].
  - injection Hi as ->. exfalso. apply (C x Xi). apply concat_nth. eauto.
  - injection Hj as ->. exfalso. apply (C x Xj). apply concat_nth. eauto.
  - f_equal. eapply IH; eauto.
Qed.
Lemma concat_inner : forall (L : list (list N)), NoDup (concat L) -> forall i li, nth_error L i = Some li -> NoDup li.
Proof.
  induction L as [|l L IH]; intros ND i li Hi; [destruct i; discriminate|]. cbn [concat] in ND. apply NoDup_app_iff in ND.
  destruct ND as (A & B & C). destruct i; cbn in Hi; [congruence|eauto].
Qed.
Lemma NoDup_concat_intro : forall (L : list (list N)), (forall i li, nth_error L i = Some li -> NoDup li) ->
  (forall i j li lj x, nth_error L i = Some li -> nth_error L j = Some lj -> In x li -> In x lj -> i = j) -> NoDup (concat L).
Proof.
  induction L as [|l L IH]; intros H1 H2; [constructor|]. cbn [concat]. apply NoDup_app_iff. split; [apply (H1 0); reflexivity|]. split.
  - apply IH; [intros i li Hi; apply (H1 (S i)); exact Hi|]. intros i j li lj x Hi Hj Xi Xj.
    assert (S i = S j) by (eapply H2; eauto). congruence.
  - intros x Hx Hc. apply concat_nth in Hc. destruct Hc as (j & lj & Hj & Hxj).
    assert (0 = S j) by (eapply (H2 0 (S j) l lj x); eauto). discriminate.
Qed.
Lemma follows_app a b x y : follows (a ++ b) x y <-> follows a x y \/ follows b x y \/ (exists p q, a = p ++ [x] /\ b = y :: q).
Proof.
  induction a as [|u [|v a] IH].
  - cbn. split; [tauto|]. intros [[]|[?|(p & q & X & _)]]; [auto|]. destruct p; discriminate.
  - destruct b as [|w b]; cbn [app follows].
    + split; [intros []|]. intros [[]|[[]|(p & q & _ & X)]]. discriminate.
    + split.
      * intros [[-> ->]|H]; [right; right; exists [], b; auto|auto].
      * intros [[]|[H|(p & q & X & Y)]]; [auto|]. left. injection Y as -> ->. destruct p as [|? [|? ?]]; cbn in X; try discriminate. injection X as ->. auto.
  - change (follows ((u :: v :: a) ++ b) x y) with ((x = u /\ y = v) \/ follows ((v :: a) ++ b) x y). rewrite IH.
    change (follows (u :: v :: a) x y) with ((x = u /\ y = v) \/ follows (v :: a) x y).
    assert (X : (exists p q, v :: a = p ++ [x] /\ b = y :: q) <-> (exists p q, u :: v :: a = p ++ [x] /\ b = y :: q)).
    { split; intros (p & q & Y & Z).
      - exists (u :: p), q. cbn. rewrite <- Y. auto.
      - destruct p as [|? p]; [discriminate|]. cbn in Y. injection Y as _ Y. exists p, q. auto. }
    rewrite X. tauto.
Qed.
Lemma follows_notfst l rest a b : NoDup (l :: rest) -> (follows rest a b <-> follows (l :: rest) a b /\ a <> l).
Proof.
  intros ND. inversion ND as [|? ? H1 H2]; subst. destruct rest as [|y rest]; [cbn; tauto|].
  change (follows (l :: y :: rest) a b) with ((a = l /\ b = y) \/ follows (y :: rest) a b). split; [|tauto].
  intros H. split; [auto|]. apply follows_In in H. intros ->. tauto.
Qed.
Lemma follows_snd l rest a : NoDup (l :: rest) -> ~ follows (l :: rest) a l.
Proof.
  intros ND H. inversion ND as [|? ? H1 H2]; subst. destruct rest as [|y rest]; [exact H|].
  destruct H as [[_ ->]|H]; [apply H1; now left|]. apply follows_In in H. tauto.
Qed.

Section Sim.
  Variable A : Type.
  Variable can : A -> A -> outcome bool.

  (** The edges a list of label lists should have *)
  Definition Cr (prog : list A) (L : list (list N)) (a b : N) : Prop :=
    (exists i ls, nth_error L i = Some ls /\ follows ls a b) \/
    (exists i j x y li lj p q, i < j /\ nth_error prog i = Some x /\ nth_error prog j = Some y /\ can x y = Ok false /\
       nth_error L i = Some li /\ nth_error L j = Some lj /\ li = p ++ [a] /\ lj = b :: q).

  Record sim (prog : list A) (d : dag A) (p : pending A) (L : list (list N)) : Prop := {
    s_inv : inv (d_graph d);
    s_len1 : length p = length prog;
    s_len2 : length L = length prog;
    s_ins : forall i ls xs, nth_error L i = Some ls -> nth_error p i = Some xs ->
            Forall2 (fun l x => alookup (d_ins d) l = Some x) ls xs;
    s_nd : NoDup (concat L);
    s_V : forall x, V (d_graph d) x <-> In x (concat L);
    s_fresh : forall x, In x (concat L) -> (x < d_next d)%N;
    s_can : forall i j x y, i < j -> nth_error prog i = Some x -> nth_error prog j = Some y -> exists c, can x y = Ok c;
    s_E : forall a b, E (d_graph d) a b <-> Cr prog L a b
  }.

  (** ** Replacing the first label of one instruction *)
  Lemma cr_replace prog L j l rest F : NoDup (concat L) -> nth_error L j = Some (l :: rest) -> (forall a, ~ Cr prog L a l) ->
    (forall x, In x F -> ~ In x (concat L)) ->
    forall a b, Cr prog (set_nth j (F ++ rest) L) a b <->
      (Cr prog L a b /\ a <> l /\ b <> l) \/ follows F a b \/ ((exists p, F = p ++ [a]) /\ Cr prog L l b).
  Proof.
    intros ND Hj Hd HF a b. assert (Lj : j < length L) by (eapply nth_lt; eauto).
    assert (NDj : NoDup (l :: rest)) by (eapply concat_inner; eauto).
    assert (Hl : forall i li, nth_error L i = Some li -> i <> j -> ~ In l li).
    { intros i li Hi Hne Hin. apply Hne. eapply (concat_unique L ND i j li _ l); eauto. now left. }
    split.
    - intros [(i & ls & Hi & Hf)|(i & k & x & y & li & lk & p & q & Hik & Px & Py & Hc & Hi & Hk & -> & ->)].
      + destruct (Nat.eq_dec j i) as [<-|Dij].
        * rewrite set_nth_same in Hi by auto. injection Hi as <-. apply follows_app in Hf. destruct Hf as [Hf|[Hf|(p & q & -> & ->)]].
          -- auto.
          -- left. split; [left; exists j, (l :: rest); split; [exact Hj|]; apply (follows_notfst l rest a b NDj); exact Hf|].
             apply follows_In in Hf. inversion NDj; subst. split; intros ->; tauto.
          -- right; right. split; [eauto|]. left. exists j, (l :: b :: q). split; [exact Hj|]. cbn. auto.
        * rewrite set_nth_other in Hi by auto. left. split; [left; eauto|]. apply follows_In in Hf.
          assert (i <> j) by auto. split; intros ->; eapply (Hl i); eauto; tauto.
      + assert (NoIn : forall i x li q, i < j -> nth_error prog i = Some x -> nth_error prog j = Some y -> can x y = Ok false ->
                   nth_error L i = Some (li ++ [q]) -> False).
        { intros i0 x0 li0 q0 H1 H2 H3 H4 H5. apply (Hd q0). right. exists i0, j, x0, y, (li0 ++ [q0]), (l :: rest), li0, rest. auto 10. }
        destruct (Nat.eq_dec j i) as [<-|Dij].
        * rewrite set_nth_other in Hk by lia. rewrite set_nth_same in Hi by auto. injection Hi as Hi.
          assert (b <> l) by (intros ->; apply (Hl k (l :: q) Hk); [lia|now left]).
          destruct rest as [|r0 rest] using rev_ind.
          -- rewrite app_nil_r in Hi. right; right. split; [eauto|]. right. exists j, k, x, y, [l], (b :: q), [], q. auto 10.
          -- clear IHrest. rewrite app_assoc in Hi. apply app_inj_tail in Hi. destruct Hi as [_ ->].
             left. split; [right; exists j, k, x, y, (l :: rest ++ [a]), (b :: q), (l :: rest), q; auto 10|]. split; [|auto].
             intros ->. inversion NDj as [|? ? X _]. apply X. apply in_app_iff. right. now left.
        * rewrite set_nth_other in Hi by auto. destruct (Nat.eq_dec j k) as [<-|Djk].
          -- exfalso. eapply NoIn; eauto.
          -- rewrite set_nth_other in Hk by auto. left. split; [right; exists i, k, x, y, (p ++ [a]), (b :: q), p, q; auto 10|].
             split; intros ->; [apply (Hl i (p ++ [l]) Hi); [lia|apply in_app_iff; right; now left]|apply (Hl k (l :: q) Hk); [lia|now left]].
    - intros [([(i & ls & Hi & Hf)|(i & k & x & y & li & lk & p & q & Hik & Px & Py & Hc & Hi & Hk & -> & ->)] & Da & Db)|[Hf|((p & ->) & Hc)]].
      + left. destruct (Nat.eq_dec j i) as [<-|Dij].
        * exists j, (F ++ rest). rewrite set_nth_same by auto. split; [reflexivity|]. apply follows_app. right; left.
          assert (ls = l :: rest) by congruence. subst. apply (follows_notfst l rest a b NDj). auto.
        * exists i, ls. rewrite set_nth_other by auto. auto.
      + right. destruct (Nat.eq_dec j i) as [<-|Dij].
        * rewrite Hj in Hi. injection Hi as Hi. destruct p as [|p0 p]; cbn in Hi; injection Hi as Hi1 Hi2; [congruence|]. subst rest.
          exists j, k, x, y, (F ++ p ++ [a]), (b :: q), (F ++ p), q. rewrite set_nth_same, set_nth_other by lia.
          rewrite <- app_assoc. auto 10.
        * destruct (Nat.eq_dec j k) as [<-|Djk]; [rewrite Hj in Hk; injection Hk as Hk _; congruence|].
          exists i, k, x, y, (p ++ [a]), (b :: q), p, q. rewrite !set_nth_other by auto. auto 10.
      + left. exists j, (F ++ rest). rewrite set_nth_same by auto. split; [reflexivity|]. apply follows_app. auto.
      + destruct Hc as [(i & ls & Hi & Hf)|(i & k & x & y & li & lk & p' & q & Hik & Px & Py & Hc & Hi & Hk & -> & ->)].
        * left. assert (i = j). { eapply (concat_unique L ND i j ls (l :: rest) l); eauto; [apply (follows_In _ _ _ Hf)|now left]. }
          subst i. assert (ls = l :: rest) by congruence. subst ls. destruct rest as [|r0 rest]; [destruct Hf|].
          assert (b = r0). { destruct Hf as [[_ ?]|Hf]; [auto|]. apply follows_In in Hf. inversion NDj; subst. tauto. } subst r0.
          exists j, ((p ++ [a]) ++ b :: rest). rewrite set_nth_same by auto. split; [reflexivity|]. apply follows_app. right; right. eauto.
        * assert (i = j). { eapply (concat_unique L ND i j (p' ++ [l]) (l :: rest) l); eauto; [apply in_app_iff; right|]; now left. }
          subst i. rewrite Hj in Hi. injection Hi as Hi. destruct p' as [|p0 p']; cbn in Hi; [injection Hi as Hi2|injection Hi as Hi1 Hi2].
          -- subst rest. right. exists j, k, x, y, ((p ++ [a]) ++ []), (b :: q), p, q. rewrite set_nth_same, set_nth_other by lia.
             rewrite app_nil_r. auto 10.
          -- exfalso. subst. inversion NDj as [|? ? X _]. apply X. apply in_app_iff. right. now left.
  Qed.

  Lemma cr_order prog L a b : Cr prog L a b -> earlier (concat L) a b.
  Proof.
    assert (G : forall i ls, nth_error L i = Some ls -> exists u v, concat L = u ++ ls ++ v /\ u = concat (firstn i L) /\ v = concat (skipn (S i) L)).
    { intros i ls Hi. exists (concat (firstn i L)), (concat (skipn (S i) L)). split; [|auto].
      rewrite <- (firstn_skipn i L) at 1. rewrite concat_app. f_equal. clear - Hi. revert L Hi.
      induction i as [|i IH]; intros [|l L] Hi; cbn in *; try discriminate; [congruence|]. rewrite IH; auto. }
    intros [(i & ls & Hi & Hf)|(i & j & x & y & li & lj & p & q & Hij & _ & _ & _ & Hi & Hj & -> & ->)].
    - destruct (G i ls Hi) as (u & v & -> & _). clear - Hf.
      assert (Y : exists p q, ls = p ++ a :: b :: q).
      { induction ls as [|x [|y ls] IH]; [destruct Hf|destruct Hf|]. destruct Hf as [[-> ->]|Hf]; [exists [], ls; reflexivity|].
        destruct (IH Hf) as (p & q & X). exists (x :: p), q. cbn. now rewrite X. }
      destruct Y as (p & q & ->). exists (u ++ p), [], (q ++ v). cbn. now rewrite <- !app_assoc.
    - destruct (G i _ Hi) as (u & v & El & _ & ->).
      assert (Hj' : In (b :: q) (skipn (S i) L)).
      { replace j with (S i + (j - S i)) in Hj by lia. clear - Hj. revert L Hj. generalize (j - S i). clear j. 
        induction (S i) as [|m IH]; intros n L Hj; [cbn; eapply nth_error_In; eauto|]. destruct L as [|l L]; [destruct n; discriminate|]. cbn in *. eapply IH; eauto. }
      apply in_split in Hj'. destruct Hj' as (c1 & c2 & Hs). rewrite El, Hs, concat_app. cbn [concat].
      exists (u ++ p), (concat c1), (q ++ concat c2). now rewrite <- !app_assoc.
  Qed.
  Lemma earlier_irrefl (l : list N) a : NoDup l -> ~ earlier l a a.
  Proof.
    intros ND (p & q & r & ->). apply NoDup_app_iff in ND. destruct ND as (_ & ND & _). inversion ND; subst. apply H1.
    apply in_app_iff. right. now left.
  Qed.
  Lemma sim_acyclic prog d p L : sim prog d p L -> acyclic (d_graph d).
  Proof.
    intros S a Ha. apply before_E in Ha. assert (G : forall x y, clos_trans N (E (d_graph d)) x y -> earlier (concat L) x y).
    { induction 1 as [x y H|x y z _ IH1 _ IH2]; [apply (s_E _ _ _ _ S) in H; eapply cr_order; eauto|].
      eapply earlier_trans; eauto. apply (s_nd _ _ _ _ S). }
    apply G in Ha. eapply earlier_irrefl; eauto. apply (s_nd _ _ _ _ S).
  Qed.

  (** ** Heads are the enabled instructions *)
  Lemma heads_enabled prog d p L l : sim prog d p L ->
    (V (d_graph d) l /\ forall a, ~ E (d_graph d) a l) <->
    (exists j x rest lr, nth_error L j = Some (l :: lr) /\ alookup (d_ins d) l = Some x /\ enabled can prog p j x rest).
  Proof.
    intros S. pose proof S as [I L1 L2 HI ND HV Hfr Hcan HE]. split.
    - intros [Vl Hn]. apply HV, concat_nth in Vl. destruct Vl as (j & ls & Hj & Hin).
      assert (Hls : exists lr, ls = l :: lr).
      { apply in_split in Hin. destruct Hin as (u & v & ->). destruct u as [|z u] using rev_ind; [exists v; reflexivity|].
        exfalso. apply (Hn z), HE. left. exists j, ((u ++ [z]) ++ l :: v). split; [exact Hj|]. apply follows_app. right; right. eauto. }
      destruct Hls as [lr ->]. assert (Ljp : j < length p) by (rewrite L1, <- L2; eapply nth_lt; eauto).
      destruct (nth_ex p j Ljp) as [xs Hp]. pose proof (HI _ _ _ Hj Hp) as F. inversion F as [|? x ? rest Hx _]; subst.
      exists j, x, rest, lr. split; [exact Hj|]. split; [exact Hx|]. split; [exact Hp|].
      intros i a b li Hij Pa Pb Hi Hne. destruct (Hcan _ _ _ _ Hij Pa Pb) as [[|] Hc]; [exact Hc|]. exfalso.
      assert (LiL : i < length L) by (apply nth_lt in Pa; lia). destruct (nth_ex L i LiL) as [ll Hl].
      pose proof (HI _ _ _ Hl Hi) as F2. destruct ll as [|z ll] using rev_ind; [inversion F2; subst; auto|].
      apply (Hn z), HE. right. exists i, j, a, b, (ll ++ [z]), (l :: lr), ll, lr. auto 10.
    - intros (j & x & rest & lr & Hj & Hx & Hp & Hen). split; [apply HV, concat_nth; exists j, (l :: lr); split; [exact Hj|now left]|].
      intros a He. apply HE in He. destruct He as [(i & ls & Hi & Hf)|(i & k & y & z & li & lk & u & v & Hik & Py & Pz & Hc & Hi & Hk & -> & ->)].
      + assert (i = j). { eapply (concat_unique L ND i j ls (l :: lr) l); eauto; [apply (follows_In _ _ _ Hf)|now left]. }
        subst i. rewrite Hj in Hi. injection Hi as <-. eapply follows_snd; [|exact Hf]. eapply concat_inner; eauto.
      + assert (k = j). { eapply (concat_unique L ND k j (l :: v) (l :: lr) l); eauto; now left. } subst k.
        assert (Lip : i < length p) by (apply nth_lt in Py; lia). destruct (nth_ex p i Lip) as [xs Hpi].
        pose proof (HI _ _ _ Hi Hpi) as F. assert (xs <> []). { intros ->. inversion F. destruct u; discriminate. }
        pose proof (Hen _ _ _ _ Hik Py Pz Hpi H). congruence.
  Qed.

  (** ** Steps *)
  Lemma sim_replace prog d p L j l lr x rest F fs (g' : graph) ins deps ph next :
    sim prog d p L -> nth_error L j = Some (l :: lr) -> nth_error p j = Some (x :: rest) -> (forall a, ~ E (d_graph d) a l) ->
    inv g' -> NoDup F -> (forall y, In y F -> (d_next d <= y < next)%N) -> (d_next d <= next)%N ->
    Forall2 (fun l x => alookup ins l = Some x) F fs ->
    (forall y, In y (concat L) -> y <> l -> alookup ins y = alookup (d_ins d) y) ->
    (forall y, V g' y <-> (V (d_graph d) y /\ y <> l) \/ In y F) ->
    (forall a b, E g' a b <-> (E (d_graph d) a b /\ a <> l /\ b <> l) \/ follows F a b \/ ((exists p, F = p ++ [a]) /\ E (d_graph d) l b)) ->
    sim prog (mkDag g' ins deps ph next) (set_nth j (fs ++ rest) p) (set_nth j (F ++ lr) L).
  Proof.
    intros S Hj Hp Hn I' NF HF Hnx F2 Hins HV' HE'. pose proof S as [I L1 L2 HI ND HV Hfr Hcan HE].
    assert (LjL : j < length L) by (eapply nth_lt; eauto). assert (Ljp : j < length p) by lia.
    assert (Fout : forall y, In y F -> ~ In y (concat L)) by (intros y Hy Hc; apply HF in Hy; apply Hfr in Hc; lia).
    assert (NDj : NoDup (l :: lr)) by (eapply concat_inner; eauto).
    pose proof (HI _ _ _ Hj Hp) as FF. inversion FF as [|? ? ? ? Hx FF']; subst.
    assert (Inc : forall y, In y (concat (set_nth j (F ++ lr) L)) <-> (In y (concat L) /\ y <> l) \/ In y F).
    { intros y. rewrite !concat_nth. split.
      - intros (i & ls & Hi & Hy). destruct (Nat.eq_dec j i) as [<-|D].
        + rewrite set_nth_same in Hi by auto. injection Hi as <-. apply in_app_iff in Hy. destruct Hy as [Hy|Hy]; [auto|].
          left. split; [exists j, (l :: lr); split; [exact Hj|now right]|]. inversion NDj; subst. intros ->; auto.
        + rewrite set_nth_other in Hi by auto. left. split; [eauto|]. intros ->. apply D.
          symmetry. eapply (concat_unique L ND i j ls (l :: lr) l); eauto. now left.
      - intros [[(i & ls & Hi & Hy) D]|Hy].
        + destruct (Nat.eq_dec j i) as [<-|Dij].
          * exists j, (F ++ lr). rewrite set_nth_same by auto. split; [reflexivity|]. rewrite Hj in Hi. injection Hi as <-.
            destruct Hy as [->|Hy]; [congruence|]. apply in_app_iff. auto.
          * exists i, ls. rewrite set_nth_other by auto. auto.
        + exists j, (F ++ lr). rewrite set_nth_same by auto. split; [reflexivity|]. apply in_app_iff. auto. }
    constructor; cbn [d_graph d_ins d_next].
    - exact I'.
    - now rewrite set_nth_length.
    - now rewrite set_nth_length.
    - intros i ls xs Hi Hxs. destruct (Nat.eq_dec j i) as [<-|D].
      + rewrite set_nth_same in Hi by auto; rewrite set_nth_same in Hxs by auto. injection Hi as <-. injection Hxs as <-. apply Forall2_app; [exact F2|].
        assert (Hin : forall y, In y lr -> In y (concat L) /\ y <> l).
        { intros y Hy. split; [apply concat_nth; exists j, (l :: lr); split; [exact Hj|now right]|]. inversion NDj; subst. intros ->; auto. }
        clear - FF' Hin Hins. induction FF' as [|u v us vs Huv _ IH]; [constructor|]. constructor.
        * rewrite Hins; [exact Huv|apply Hin; now left|apply Hin; now left].
        * apply IH. intros y Hy. apply Hin. now right.
      + rewrite set_nth_other in Hi by auto; rewrite set_nth_other in Hxs by auto. pose proof (HI _ _ _ Hi Hxs) as G.
        assert (Hin : forall y, In y ls -> In y (concat L) /\ y <> l).
        { intros y Hy. split; [apply concat_nth; eauto|]. intros ->. apply D. symmetry. eapply (concat_unique L ND i j ls (l :: lr) l); eauto. now left. }
        clear - G Hin Hins. induction G as [|u v us vs Huv _ IH]; [constructor|]. constructor.
        * rewrite Hins; [exact Huv|apply Hin; now left|apply Hin; now left].
        * apply IH. intros y Hy. apply Hin. now right.
    - apply NoDup_concat_intro.
      + intros i li Hi. destruct (Nat.eq_dec j i) as [<-|D].
        * rewrite set_nth_same in Hi by auto. injection Hi as <-. apply NoDup_app_iff. inversion NDj as [|? ? X Y]; subst. split; [exact NF|].
          split; [exact Y|]. intros y Hy Hy'. apply (Fout y Hy). apply concat_nth. exists j, (l :: lr). split; [exact Hj|now right].
        * rewrite set_nth_other in Hi by auto. eapply concat_inner; eauto.
      + assert (W : forall i k li y, i = j -> k <> j -> In y (F ++ lr) -> nth_error L k = Some li -> In y li -> False).
        { intros i k li y _ Dk Hy Hk Hyk. apply in_app_iff in Hy. destruct Hy as [Hy|Hy].
          - apply (Fout y Hy). apply concat_nth. eauto.
          - apply Dk. eapply (concat_unique L ND k j li (l :: lr) y); eauto. now right. }
        intros i k li lk y Hi Hk Hyi Hyk. destruct (Nat.eq_dec j i) as [<-|D], (Nat.eq_dec j k) as [<-|D'].
        * reflexivity.
        * exfalso. rewrite set_nth_same in Hi by auto. injection Hi as <-. rewrite set_nth_other in Hk by auto. eapply (W j k); eauto.
        * exfalso. rewrite set_nth_same in Hk by auto. injection Hk as <-. rewrite set_nth_other in Hi by auto. eapply (W j i); eauto.
        * rewrite set_nth_other in Hi by auto; rewrite set_nth_other in Hk by auto. eapply (concat_unique L ND); eauto.
    - intros y. rewrite HV', Inc, HV. reflexivity.
    - intros y Hy. apply Inc in Hy. destruct Hy as [[Hy _]|Hy]; [apply Hfr in Hy; lia|apply HF in Hy; lia].
    - exact Hcan.
    - intros a b. rewrite HE'. rewrite (cr_replace prog L j l lr F ND Hj); [|intros c Hc; apply (Hn c), HE; exact Hc|exact Fout].
      rewrite !HE. reflexivity.
  Qed.

  Lemma labels_from_In c n y : In y (labels_from c n) <-> (c <= y < c + N.of_nat n)%N.
  Proof.
    unfold labels_from. rewrite in_map_iff. split.
    - intros (k & <- & Hk). apply in_seq in Hk. lia.
    - intros H. exists (N.to_nat (y - c)%N). split; [lia|]. apply in_seq. lia.
  Qed.
  Lemma labels_from_NoDup c n : NoDup (labels_from c n).
  Proof.
    unfold labels_from. apply FinFun.Injective_map_NoDup; [intros a b Hab; lia|apply seq_NoDup].
  Qed.
  Lemma labels_from_length c n : length (labels_from c n) = n.
  Proof. unfold labels_from. now rewrite map_length, seq_length. Qed.
  Lemma combine_lookup : forall (ks : list N) (vs : list A), NoDup ks -> length ks = length vs ->
    Forall2 (fun l x => alookup (combine ks vs) l = Some x) ks vs.
  Proof.
    induction ks as [|k ks IH]; intros [|v vs] ND H; try discriminate; [constructor|]. inversion ND as [|? ? Hk ND']; subst.
    cbn [combine]. constructor; [cbn; now rewrite N.eqb_refl|]. specialize (IH vs ND' ltac:(cbn in H; lia)).
    assert (W : forall y, In y ks -> (y =? k)%N = false) by (intros y Hy; apply N.eqb_neq; intros ->; auto).
    clear - IH W. set (m := combine ks vs) in *. clearbody m. induction IH as [|u v' us ws Huv _ IH']; [constructor|]. constructor.
    - cbn [alookup]. rewrite W by (now left). exact Huv.
    - apply IH'. intros y Hy. apply W. now right.
  Qed.
  Lemma alookup_filter (m : list (N * A)) (f : N -> bool) x : alookup (filter (fun kv => f (fst kv)) m) x = if f x then alookup m x else None.
  Proof.
    induction m as [|[k v] m IH]; cbn [filter alookup fst]; [now destruct (f x)|].
    destruct (f k) eqn:Fk; cbn [alookup]; destruct (N.eqb_spec x k) as [->|D].
    - now rewrite Fk.
    - exact IH.
    - rewrite IH. now rewrite Fk.
    - exact IH.
  Qed.
  Lemma combine_none : forall (ks : list N) (vs : list A) x, ~ In x ks -> alookup (combine ks vs) x = None.
  Proof.
    induction ks as [|k ks IH]; intros [|v vs] x H; try reflexivity. cbn [combine alookup].
    rewrite (proj2 (N.eqb_neq x k)) by (intros ->; apply H; now left). apply IH. intros ?; apply H; now right.
  Qed.

  Lemma pop_step prog d p L l x hs : sim prog d p L -> applicable d = Ok hs -> In l hs -> dag_at d l = Ok x ->
    exists d' j L', pop_head d l = Ok d' /\ machine_step can prog p j x [] (set_nth j (tl (nth j p [])) p) /\
      sim prog d' (set_nth j (tl (nth j p [])) p) L'.
  Proof.
    intros S Ha Hl Hx. pose proof S as [I L1 L2 HI ND HV Hfr Hcan HE].
    destruct (heads_spec _ I) as (hs' & Hh & _ & Hhs). unfold applicable in Ha. rewrite Ha in Hh. injection Hh as <-.
    apply Hhs in Hl. destruct Hl as [Vl Hn]. destruct (proj1 (heads_enabled prog d p L l S) (conj Vl Hn)) as (j & x' & rest & lr & Hj & Hx' & Hen).
    unfold dag_at in Hx. apply at_map_ok in Hx. assert (x' = x) by congruence. subst x'.
    destruct (remove_node_spec _ _ I Vl) as (g' & Hg & I' & V' & E').
    destruct (nth_error p j) as [pj|] eqn:Pj; [|destruct Hen as [Y _]; congruence].
    assert (pj = x :: rest) by (destruct Hen as [Y _]; congruence). subst pj.
    assert (Ep : nth j p [] = x :: rest) by (now apply nth_error_nth).
    unfold pop_head. apply at_map_ok in Hx. rewrite Hx. cbn [bind].
    assert (Hpr : exists pr, predecessors (d_graph d) l = Ok pr).
    { unfold predecessors. unfold V in Vl. rewrite Vl. cbn [negb]. rewrite (inv_same _ I) in Vl. destruct (at_map_has _ _ Vl) as (v & -> & _). eauto. }
    destruct Hpr as [pr ->]. cbn [bind]. destruct (fold_left _ pr (d_deps d, d_pheads d)) as [deps ph]. rewrite Hg. cbn [bind].
    eexists _, j, (set_nth j lr L). rewrite Ep. cbn [tl]. split; [reflexivity|]. split.
    - change rest with ([] ++ rest). constructor. exact Hen.
    - change rest with ([] ++ rest). change lr with ([] ++ lr). eapply (sim_replace prog d p L j l lr x rest [] []); eauto.
      + constructor. + intros y []. + lia.
      + intros y _ D. rewrite alookup_merase. now rewrite (proj2 (N.eqb_neq y l)) by auto.
      + intros y. rewrite V'. cbn. tauto.
      + intros a b. rewrite E'. cbn [follows]. split; [tauto|]. intros [?|[[]|[[q Hq] _]]]; [auto|destruct q; discriminate].
  Qed.

  Lemma expand_step prog d p L l x fs prox f d' hs : sim prog d p L -> applicable d = Ok hs -> In l hs -> dag_at d l = Ok x -> fs <> [] ->
    dag_expand d l fs prox = Ok (f, d') ->
    exists j L', machine_step can prog p j x fs (set_nth j (fs ++ tl (nth j p [])) p) /\ sim prog d' (set_nth j (fs ++ tl (nth j p [])) p) L'.
  Proof.
    intros S Ha Hl Hx Hne He. pose proof S as [I L1 L2 HI ND HV Hfr Hcan HE].
    destruct (heads_spec _ I) as (hs' & Hh & _ & Hhs). unfold applicable in Ha. rewrite Ha in Hh. injection Hh as <-.
    apply Hhs in Hl. destruct Hl as [Vl Hn]. destruct (proj1 (heads_enabled prog d p L l S) (conj Vl Hn)) as (j & x' & rest & lr & Hj & Hx' & Hen).
    unfold dag_at in Hx. apply at_map_ok in Hx. assert (x' = x) by congruence. subst x'.
    assert (Pj : nth_error p j = Some (x :: rest)) by (apply Hen).
    assert (Ep : nth j p [] = x :: rest) by (now apply nth_error_nth).
    unfold dag_expand in He. destruct fs as [|f0 fs]; [congruence|]. set (ff := f0 :: fs) in *.
    set (labels := labels_from (d_next d) (length ff)) in *.
    assert (Hlab : exists fr r, labels = fr :: r) by (unfold labels, ff, labels_from; cbn; eauto).
    destruct Hlab as (fr & r & Hlab).
    assert (Hfresh : existsb (has (g_out (d_graph d))) labels = false).
    { destruct (existsb _ labels) eqn:X; [|reflexivity]. apply existsb_exists in X. destruct X as (y & Hy & Vy). apply HV, Hfr in Vy.
      apply labels_from_In in Hy. lia. }
    destruct (expand_spec (d_graph d) l fr r I Vl) as (g' & Hg & I' & V' & E'); [rewrite <- Hlab; exact Hfresh|].
    rewrite <- Hlab in *. rewrite Hg in He. cbn [bind] in He.
    match type of He with (if ?c then _ else _) = _ => destruct c; [discriminate|] end. apply ok2_inj in He. destruct He as [_ <-].
    exists j, (set_nth j (labels ++ lr) L). rewrite Ep. cbn [tl]. split; [constructor; exact Hen|].
    eapply (sim_replace prog d p L j l lr x rest labels ff); eauto.
    - apply labels_from_NoDup.
    - intros y Hy. apply labels_from_In in Hy. lia.
    - lia.
    - assert (C : Forall2 (fun l x => alookup (combine labels ff) l = Some x) labels ff).
      { apply combine_lookup; [apply labels_from_NoDup|apply labels_from_length]. }
      assert (W : forall y, In y labels -> memN y labels = true) by (intros; now apply memN_In).
      set (m := combine labels ff) in *. clearbody m.
      assert (Fl : forall y, alookup (filter (fun kv => negb (memN (fst kv) labels)) (d_ins d)) y = if negb (memN y labels) then alookup (d_ins d) y else None).
      { intros y. apply (alookup_filter (d_ins d) (fun k => negb (memN k labels))). }
      assert (G : forall us vs, Forall2 (fun l x => alookup m l = Some x) us vs -> (forall y, In y us -> memN y labels = true) ->
        Forall2 (fun l x => alookup (filter (fun kv => negb (memN (fst kv) labels)) (d_ins d) ++ m) l = Some x) us vs).
      { induction 1 as [|u v us vs Huv _ IH]; intros Hu; constructor.
        - rewrite alookup_app, Fl, Hu by (now left). cbn [negb]. exact Huv.
        - apply IH. intros y Hy. apply Hu. now right. }
      now apply G.
    - intros y Hy D. rewrite alookup_app. rewrite (alookup_filter (d_ins d) (fun k => negb (memN k labels))).
      assert (Hny : ~ In y labels) by (intros Hy'; apply labels_from_In in Hy'; apply Hfr in Hy; lia).
      rewrite (proj2 (memN_notIn _ _) Hny). cbn [negb]. rewrite combine_none by auto. now destruct (alookup (d_ins d) y).
    - intros a b. rewrite E'. set (bk := last labels fr).
      assert (Bk : forall c, (exists q, labels = q ++ [c]) <-> c = bk).
      { intros c. unfold bk. split.
        - intros [q ->]. now rewrite last_last.
        - intros ->. exists (removelast labels). apply app_removelast_last. rewrite Hlab. discriminate. }
      rewrite Bk. split.
      + intros [?|[?|[(-> & _ & ?)|[(_ & _ & X)|(_ & _ & X)]]]]; auto; exfalso; eapply Hn; eauto.
      + intros [?|[?|[-> X]]]; auto. right; right; left. split; [reflexivity|]. split; [|exact X]. intros ->. eapply Hn; eauto.
  Qed.

  Lemma sim_mark prog d p L k : sim prog d p L -> sim prog (make_proximate d k) p L.
  Proof. intros [? ? ? ? ? ? ? ? ?]. constructor; auto. Qed.
  Theorem step_sim prog d p L l x fs d' : sim prog d p L -> dag_step d l x fs d' ->
    exists j p' L', machine_step can prog p j x fs p' /\ sim prog d' p' L'.
  Proof.
    intros S H. revert p L S. induction H as [d l x d' hs Ha Hl Hx Hp|d l x fs prox f d' hs Ha Hl Hx Hne He|d l x fs d' k H IH]; intros p L S.
    - destruct (pop_step prog d p L l x hs S Ha Hl Hx) as (d1 & j & L' & H1 & H2 & H3). assert (d1 = d') by congruence. subst. eauto.
    - destruct (expand_step prog d p L l x fs prox f d' hs S Ha Hl Hx Hne He) as (j & L' & H2 & H3). eauto.
    - destruct (IH p L S) as (j & p' & L' & H1 & H2). exists j, p', L'. split; [exact H1|now apply sim_mark].
  Qed.
  Theorem run_sim prog d tr d' : dag_run d tr d' -> forall p L, sim prog d p L ->
    exists mtr p' L', machine_run can prog p mtr p' /\ sim prog d' p' L' /\ map (fun e => (snd (fst e), snd e)) mtr = tr.
  Proof.
    induction 1 as [d|d l x fs d' tr d'' H _ IH]; intros p L S.
    - exists [], p, L. split; [constructor|auto].
    - destruct (step_sim prog d p L l x fs d' S H) as (j & p' & L' & H1 & H2).
      destruct (IH _ _ H2) as (mtr & p'' & L'' & H3 & H4 & H5). exists ((j, x, fs) :: mtr), p'', L''.
      split; [econstructor; eauto|]. split; [exact H4|]. cbn. now rewrite H5.
  Qed.

  (** ** Building *)
  Definition push_step (ins : list (N * A)) (new : N) (g : graph) (l : N) : outcome graph :=
    if N.eqb l new then Ok g else do a <- at_map ins l ;; do b <- at_map ins new ;;
      do c <- can a b ;; if c then Ok g else add_edge g l new.
  Lemma push_fold (ins : list (N * A)) (new : N) (i : A) : alookup ins new = Some i -> forall order g, inv g -> V g new ->
    (forall l, In l order -> V g l /\ exists a, alookup ins l = Some a /\ (l <> new -> exists c, can a i = Ok c)) ->
    exists g', foldM (push_step ins new) order g = Ok g' /\
      inv g' /\ (forall x, V g' x <-> V g x) /\
      (forall a b, E g' a b <-> E g a b \/ (b = new /\ a <> new /\ In a order /\ exists x, alookup ins a = Some x /\ can x i = Ok false)).
  Proof.
    intros Hnew. induction order as [|l order IH]; intros g I Vn H; cbn [foldM].
    - exists g. split; [reflexivity|]. split; [exact I|]. split; [tauto|]. cbn [In]. intuition.
    - destruct (H l) as (Vl & a & Ha & Hc); [now left|].
      assert (HR : forall g1, (forall x, V g1 x <-> V g x) -> forall l, In l order -> V g1 l /\ exists a, alookup ins l = Some a /\ (l <> new -> exists c, can a i = Ok c)).
      { intros g1 V1 z Hz. destruct (H z) as [Vz W]; [now right|]. split; [now apply V1|exact W]. }
      unfold push_step at 1. destruct (N.eqb_spec l new) as [->|D].
      + cbn [bind]. destruct (IH g I Vn (HR g ltac:(tauto))) as (g' & -> & I' & V' & E'). exists g'. split; [reflexivity|]. split; [exact I'|]. split; [exact V'|].
        intros u v. rewrite E'. cbn [In]. intuition. congruence.
      + rewrite (proj2 (at_map_ok _ _ _) Ha), (proj2 (at_map_ok _ _ _) Hnew). cbn [bind]. destruct (Hc D) as [c Hc']. rewrite Hc'. cbn [bind].
        destruct c.
        * cbn [bind]. destruct (IH g I Vn (HR g ltac:(tauto))) as (g' & -> & I' & V' & E'). exists g'. split; [reflexivity|]. split; [exact I'|]. split; [exact V'|].
          intros u v. rewrite E'. cbn [In]. split; [intuition|]. intros [?|(Hv & Hu & [<-|Ho] & x & Hx & Hx')]; auto; [congruence|].
          right. eauto 6.
        * destruct (add_edge_spec g l new I) as (g1 & -> & I1 & V1 & E1). cbn [bind].
          assert (V1' : forall x, V g1 x <-> V g x). { intros x. rewrite V1. split; [|auto]. intros [?|[->| ->]]; auto. }
          destruct (IH g1 I1 (proj2 (V1' new) Vn) (HR g1 V1')) as (g' & -> & I' & V' & E'). exists g'. split; [reflexivity|]. split; [exact I'|].
          split; [intros x; now rewrite V', V1'|]. intros u v. rewrite E', E1. cbn [In]. split.
          -- intros [[?|[-> ->]]|(Hv & Hu & Ho & W)]; auto; right; eauto 8.
          -- intros [?|(-> & Hu & [<-|Ho] & x & Hx & Hx')]; auto. right. eauto 8.
  Qed.
  Lemma push_fold_can (ins : list (N * A)) (new : N) : forall order g g',
    foldM (push_step ins new) order g = Ok g' ->
    forall l a b, In l order -> l <> new -> alookup ins l = Some a -> alookup ins new = Some b -> exists c, can a b = Ok c.
  Proof.
    induction order as [|z order IH]; intros g g' H l a b Hl D Ha Hb; [destruct Hl|]. cbn [foldM] in H. apply bind_ok in H.
    destruct H as (g1 & H1 & H2). destruct Hl as [->|Hl]; [|eapply IH; eauto].
    unfold push_step in H1. rewrite (proj2 (N.eqb_neq l new) D), (proj2 (at_map_ok _ _ _) Ha), (proj2 (at_map_ok _ _ _) Hb) in H1. cbn [bind] in H1.
    apply bind_ok in H1. destruct H1 as (c & Hc & _). eauto.
  Qed.

  Definition first_labels (n : nat) : list (list N) := map (fun k => [N.of_nat k]) (seq 0 n).
  Lemma first_labels_nth n i ls : nth_error (first_labels n) i = Some ls <-> i < n /\ ls = [N.of_nat i].
  Proof.
    unfold first_labels. split.
    - intros H. assert (Hi : i < n) by (apply nth_lt in H; rewrite map_length, seq_length in H; exact H).
      split; [exact Hi|]. rewrite nth_error_map in H. rewrite (nth_error_nth' _ 0) in H by (now rewrite seq_length).
      rewrite seq_nth in H by auto. cbn in H. congruence.
    - intros [Hi ->]. rewrite nth_error_map. rewrite (nth_error_nth' _ 0) by (now rewrite seq_length). rewrite seq_nth by auto. reflexivity.
  Qed.
  Lemma first_labels_S n : first_labels (S n) = first_labels n ++ [[N.of_nat n]].
  Proof. unfold first_labels. rewrite seq_S, map_app. reflexivity. Qed.

  Lemma first_In n y : In y (concat (first_labels n)) <-> (y < N.of_nat n)%N.
  Proof.
    rewrite concat_nth. split.
    - intros (i & ls & Hi & Hy). apply first_labels_nth in Hi. destruct Hi as [Hi ->]. destruct Hy as [<-|[]]. lia.
    - intros H. exists (N.to_nat y), [y]. split; [|now left]. apply first_labels_nth. split; [lia|]. f_equal. lia.
  Qed.
  Lemma cr_first prog n a b : Cr prog (first_labels n) a b <->
    exists i j x y, i < j /\ j < n /\ nth_error prog i = Some x /\ nth_error prog j = Some y /\ can x y = Ok false /\ a = N.of_nat i /\ b = N.of_nat j.
  Proof.
    split.
    - intros [(i & ls & Hi & Hf)|(i & j & x & y & li & lj & p & q & Hij & Px & Py & Hc & Hi & Hj & -> & ->)].
      + apply first_labels_nth in Hi. destruct Hi as [_ ->]. destruct Hf.
      + apply first_labels_nth in Hi, Hj. destruct Hi as [_ Ha], Hj as [Hj Hb].
        destruct p as [|? [|? ?]]; cbn in Ha; try discriminate. injection Ha as ->. injection Hb as -> _. exists i, j, x, y. auto 8.
    - intros (i & j & x & y & Hij & Hj & Px & Py & Hc & -> & ->). right.
      exists i, j, x, y, [N.of_nat i], [N.of_nat j], [], []. repeat (split; [solve [auto|apply first_labels_nth; split; [lia|reflexivity]]|]). reflexivity.
  Qed.

  Definition built (prog : list A) (d : dag A) : Prop := sim prog d (start prog) (first_labels (length prog)) /\ d_next d = N.of_nat (length prog).

  Lemma built_empty : built [] dag_empty.
  Proof.
    split; [|reflexivity]. constructor; cbn; auto.
    - apply inv_empty.
    - intros i ls xs H. destruct i; discriminate.
    - constructor.
    - intros x. unfold V. cbn. split; [discriminate|intros []].
    - intros x [].
    - intros i j x y _ H. destruct i; discriminate.
    - intros a b. split; [intros []|]. intros H. apply (cr_first [] 0) in H. destruct H as (i & j & x & y & H1 & H2 & _). lia.
  Qed.
  Lemma start_nth (prog : list A) i xs : nth_error (start prog) i = Some xs <-> exists x, nth_error prog i = Some x /\ xs = [x].
  Proof.
    unfold start. rewrite nth_error_map. destruct (nth_error prog i) as [x|]; cbn; split; try discriminate.
    - intros H. injection H as <-. eauto.
    - intros (y & H & ->). congruence.
    - intros (y & H & _). discriminate.
  Qed.
  Lemma built_ins prog d : built prog d -> forall i x, nth_error prog i = Some x -> alookup (d_ins d) (N.of_nat i) = Some x.
  Proof.
    intros [S _] i x Hi. assert (F : Forall2 (fun l x => alookup (d_ins d) l = Some x) [N.of_nat i] [x]).
    { eapply (s_ins _ _ _ _ S i); [apply first_labels_nth; split; [eapply nth_lt; eauto|reflexivity]|apply start_nth; eauto]. }
    inversion F; auto.
  Qed.

  Lemma push_built prog d i : built prog d -> (exists d', push can d i = Ok d') \/ True -> 
    ((forall a, In a prog -> exists c, can a i = Ok c) -> exists d', push can d i = Ok d' /\ built (prog ++ [i]) d') /\
    (forall d', push can d i = Ok d' -> forall a, In a prog -> exists c, can a i = Ok c).
  Proof.
    intros B _. pose proof B as [S Hnext]. pose proof S as [I L1 L2 HI ND HV Hfr Hcan HE]. unfold push.
    destruct (add_node_spec (d_graph d) (d_next d) I) as (I1 & V1 & E1).
    assert (Hnew : ~ V (d_graph d) (d_next d)) by (rewrite HV, first_In; lia).
    assert (Ac : acyclic (d_graph (add_isolated d i))).
    { intros a Ha. apply (sim_acyclic _ _ _ _ S a). apply before_E. apply before_E in Ha. revert Ha. apply ct_iff. intros x y. symmetry. apply E1. }
    destruct (topo_spec _ I1 Ac) as (order & Ho & NDo & Hin & _). cbn [d_graph add_isolated] in Ho |- *. rewrite Ho. cbn [bind].
    set (ins := d_ins (add_isolated d i)). 
    assert (Hi : alookup ins (d_next d) = Some i).
    { unfold ins. cbn [d_ins add_isolated]. rewrite alookup_app, alookup_merase, N.eqb_refl. cbn. now rewrite N.eqb_refl. }
    assert (Ho2 : forall y, y <> d_next d -> alookup ins y = alookup (d_ins d) y).
    { intros y D. unfold ins. cbn [d_ins add_isolated]. rewrite alookup_app, alookup_merase, (proj2 (N.eqb_neq _ _) D). cbn.
      rewrite (proj2 (N.eqb_neq _ _) D). now destruct (alookup (d_ins d) y). }
    assert (Hold : forall k a, nth_error prog k = Some a -> In (N.of_nat k) order /\ N.of_nat k <> d_next d /\ alookup ins (N.of_nat k) = Some a).
    { intros k a Hk. pose proof (nth_lt _ _ _ Hk). split; [apply Hin, V1; left; apply HV, first_In; lia|]. split; [lia|].
      rewrite Ho2 by lia. eapply built_ins; eauto. }
    change (foldM _ order _) with (foldM (push_step ins (d_next d)) order (add_node (d_graph d) (d_next d))).
    split.
    - intros Hc. destruct (push_fold ins (d_next d) i Hi order (add_node (d_graph d) (d_next d)) I1) as (g' & Hg & I' & V' & E').
      + apply V1. auto.
      + intros l Hl. apply Hin in Hl. cbn [d_graph add_isolated] in Hl. split; [exact Hl|]. apply V1 in Hl. destruct Hl as [Hl| ->]; [|exists i; split; [exact Hi|congruence]].
        apply HV, first_In in Hl. destruct (nth_ex prog (N.to_nat l)) as [a Ha]; [lia|]. exists a.
        destruct (Hold _ _ Ha) as (_ & _ & X). rewrite N2Nat.id in X. split; [exact X|]. intros _. apply Hc. eapply nth_error_In; eauto.
      + rewrite Hg. cbn [bind]. eexists. split; [reflexivity|]. split; cbn [d_next add_isolated].
        2: { rewrite app_length. cbn. lia. }
        assert (Len : length (prog ++ [i]) = Datatypes.S (length prog)) by (rewrite app_length; cbn; lia).
        rewrite Len.
        constructor; cbn [d_graph d_ins d_next add_isolated].
        * exact I'.
        * unfold start. now rewrite map_length.
        * unfold first_labels. now rewrite map_length, seq_length.
        * intros k ls xs Hk Hxs. apply first_labels_nth in Hk. destruct Hk as [Hk ->]. apply start_nth in Hxs. destruct Hxs as (x & Hx & ->).
          constructor; [|constructor]. fold ins. destruct (Nat.eq_dec k (length prog)) as [->|D].
          -- rewrite nth_error_app2, Nat.sub_diag in Hx by lia. cbn in Hx. rewrite <- Hnext. congruence.
          -- rewrite nth_error_app1 in Hx by lia. now apply Hold.
        * apply NoDup_concat_intro.
          -- intros k li Hk. apply first_labels_nth in Hk. destruct Hk as [_ ->]. repeat constructor. intros [].
          -- intros k m li lj x Hk Hm Hx Hx'. apply first_labels_nth in Hk, Hm. destruct Hk as [_ ->], Hm as [_ ->]. destruct Hx as [<-|[]], Hx' as [X|[]]. lia.
        * intros x. rewrite V', V1, HV, !first_In. lia.
        * intros x Hx. apply first_In in Hx. lia.
        * intros u v x y Huv Hu Hv. pose proof (nth_lt _ _ _ Hv) as Lv. rewrite app_length in Lv. cbn in Lv.
          rewrite nth_error_app1 in Hu by lia. destruct (Nat.eq_dec v (length prog)) as [->|D].
          -- rewrite nth_error_app2, Nat.sub_diag in Hv by lia. cbn in Hv. injection Hv as <-. apply Hc. eapply nth_error_In; eauto.
          -- rewrite nth_error_app1 in Hv by lia. eauto.
        * intros a b. rewrite E', E1, HE, !cr_first. split.
          -- intros [(u & v & x & y & H1 & H2 & H3 & H4 & H5 & -> & ->)|(-> & Da & Hao & x & Hx & Hxc)].
             ++ exists u, v, x, y. rewrite !nth_error_app1 by lia. repeat (split; [solve [auto|lia]|]). auto.
             ++ apply Hin in Hao. cbn [d_graph add_isolated] in Hao. apply V1 in Hao. destruct Hao as [Hao|?]; [|congruence].
                apply HV, first_In in Hao. destruct (nth_ex prog (N.to_nat a)) as [z Hz]; [lia|]. destruct (Hold _ _ Hz) as (_ & _ & Y).
                rewrite N2Nat.id in Y. assert (z = x) by congruence. subst z.
                exists (N.to_nat a), (length prog), x, i. rewrite nth_error_app1 by lia. rewrite nth_error_app2, Nat.sub_diag by lia.
                repeat (split; [solve [auto|lia]|]). exact Hnext.
          -- intros (u & v & x & y & H1 & H2 & H3 & H4 & H5 & -> & ->). rewrite nth_error_app1 in H3 by lia.
             destruct (Nat.eq_dec v (length prog)) as [->|D].
             ++ rewrite nth_error_app2, Nat.sub_diag in H4 by lia. cbn in H4. injection H4 as <-. right. destruct (Hold _ _ H3) as (X1 & X2 & X3).
                split; [now rewrite Hnext|]. split; [exact X2|]. split; [exact X1|]. eauto.
             ++ rewrite nth_error_app1 in H4 by lia. left. exists u, v, x, y. repeat (split; [solve [auto|lia]|]). auto.
    - intros d' Hd a Ha. apply bind_ok in Hd. destruct Hd as (g' & Hg & _). apply In_nth_error in Ha. destruct Ha as [k Hk].
      destruct (Hold _ _ Hk) as (X1 & X2 & X3). eapply push_fold_can; eauto.
  Qed.

  Lemma foldM_app {X Y} (f : X -> Y -> outcome X) l1 : forall l2 x, foldM f (l1 ++ l2) x = (do y <- foldM f l1 x ;; foldM f l2 y).
  Proof. induction l1 as [|y l1 IH]; intros l2 x; cbn [foldM app bind]; [reflexivity|]. destruct (f x y); cbn [bind]; auto. Qed.

  Definition all_decided (prog : list A) : Prop :=
    forall i j x y, i < j -> nth_error prog i = Some x -> nth_error prog j = Some y -> exists c, can x y = Ok c.
  Lemma dag_of_built prog : all_decided prog -> exists d, dag_of can prog = Ok d /\ built prog d.
  Proof.
    unfold dag_of. induction prog as [|i prog IH] using rev_ind; intros H; [exists dag_empty; split; [reflexivity|apply built_empty]|].
    destruct IH as (d & Hd & B).
    { intros u v x y H1 H2 H3. apply (H u v x y H1); [rewrite nth_error_app1; [auto|eapply nth_lt; eauto]|rewrite nth_error_app1; [auto|eapply nth_lt; eauto]]. }
    rewrite foldM_app, Hd. cbn [bind foldM]. destruct (push_built prog d i B (or_intror Logic.I)) as [P1 _].
    destruct P1 as (d' & -> & B').
    { intros a Ha. apply In_nth_error in Ha. destruct Ha as [k Hk]. apply (H k (length prog) a i); [eapply nth_lt; eauto| |].
      - rewrite nth_error_app1; [exact Hk|eapply nth_lt; eauto].
      - rewrite nth_error_app2, Nat.sub_diag by lia. reflexivity. }
    cbn [bind]. eauto.
  Qed.
  Lemma dag_of_inv prog d : dag_of can prog = Ok d -> built prog d.
  Proof.
    unfold dag_of. revert d. induction prog as [|i prog IH] using rev_ind; intros d H; [injection H as <-; apply built_empty|].
    rewrite foldM_app in H. apply bind_ok in H. destruct H as (d0 & H0 & H1). cbn [foldM] in H1. apply bind_ok in H1. destruct H1 as (d1 & H1 & H2).
    injection H2 as <-. destruct (push_built prog d0 i (IH _ H0) (or_intror Logic.I)) as [P1 P2].
    destruct (P1 (P2 _ H1)) as (d' & X & B). assert (d' = d1) by congruence. now subst.
  Qed.

  (** ** Progress and the end *)
  Lemma progress prog p L d : sim prog d p L -> ~ finished p -> exists j x rest, enabled can prog p j x rest.
  Proof.
    intros S. pose proof (s_len1 _ _ _ _ S) as L1. clear L S d. intros Hf.
    assert (G : forall n, (forall i l, i < n -> nth_error p i = Some l -> l = []) \/ exists j x rest, j < n /\ nth_error p j = Some (x :: rest) /\ forall i l, i < j -> nth_error p i = Some l -> l = []).
    { induction n as [|n IH]; [left; intros; lia|]. destruct IH as [IH|(j & x & rest & H1 & H2 & H3)]; [|right; exists j, x, rest; repeat split; auto; lia].
      destruct (nth_error p n) as [[|x rest]|] eqn:Pn.
      - left. intros i l Hi Hl. destruct (Nat.eq_dec i n) as [->|D]; [congruence|]. apply (IH i); [lia|exact Hl].
      - right. exists n, x, rest. repeat split; auto.
      - left. intros i l Hi Hl. destruct (Nat.eq_dec i n) as [->|D]; [congruence|]. apply (IH i); [lia|exact Hl]. }
    destruct (G (length p)) as [H|(j & x & rest & H1 & H2 & H3)].
    - exfalso. apply Hf. intros l Hl. apply In_nth_error in Hl. destruct Hl as [i Hi]. eapply H; [eapply nth_lt; eauto|exact Hi].
    - exists j, x, rest. split; [exact H2|]. intros i a b l Hi _ _ Hl Hne. exfalso. apply Hne. eapply H3; eauto.
  Qed.
  Lemma empty_finished prog d p L : sim prog d p L -> (dag_is_empty d = true <-> finished p).
  Proof.
    intros [I L1 L2 HI ND HV Hfr Hcan HE]. unfold dag_is_empty, g_is_empty. split.
    - destruct (g_out (d_graph d)) as [|kv m] eqn:G; [|discriminate]. intros _ l Hl. apply In_nth_error in Hl. destruct Hl as [i Hi].
      destruct (nth_ex L i) as [ls Hls]; [apply nth_lt in Hi; lia|]. pose proof (HI _ _ _ Hls Hi) as F. destruct F as [|u v us vs _ _]; [reflexivity|].
      exfalso. assert (Vu : V (d_graph d) u) by (apply HV, concat_nth; exists i, (u :: us); split; [exact Hls|now left]).
      unfold V in Vu. rewrite G in Vu. discriminate.
    - intros Hf. destruct (g_out (d_graph d)) as [|[k v] m] eqn:G; [reflexivity|]. exfalso.
      assert (Vk : V (d_graph d) k) by (apply has_In; rewrite G; now left). apply HV, concat_nth in Vk. destruct Vk as (i & ls & Hi & Hk).
      destruct (nth_ex p i) as [xs Hx]; [apply nth_lt in Hi; lia|]. pose proof (HI _ _ _ Hi Hx) as F.
      rewrite (Hf xs) in F by (eapply nth_error_In; eauto). inversion F. subst. destruct Hk.
  Qed.
  Lemma enabled_head prog d p L j x rest : sim prog d p L -> enabled can prog p j x rest ->
    exists l hs, applicable d = Ok hs /\ In l hs /\ dag_at d l = Ok x /\ exists lr, nth_error L j = Some (l :: lr).
  Proof.
    intros S Hen. pose proof S as [I L1 L2 HI ND HV Hfr Hcan HE]. pose proof Hen as [Hp _].
    destruct (nth_ex L j) as [ls Hls]; [apply nth_lt in Hp; lia|]. pose proof (HI _ _ _ Hls Hp) as F. inversion F as [|l ? lr ? Hx _]; subst.
    destruct (heads_spec _ I) as (hs & Hh & _ & Hhs). exists l, hs. split; [exact Hh|]. split.
    - apply Hhs. apply (proj2 (heads_enabled prog d p L l S)). exists j, x, rest, lr. auto.
    - split; [now apply at_map_ok|eauto].
  Qed.

  (** ** The machine keeps dependents in order *)
  Lemma machine_len prog p tr p' : machine_run can prog p tr p' -> length p' = length p.
  Proof. induction 1 as [p|p j x fs p' tr p'' H _ IH]; [reflexivity|]. rewrite IH. inversion H. apply set_nth_length. Qed.
  Lemma machine_stays prog p tr p' : machine_run can prog p tr p' -> forall i, nth_error p i = Some [] ->
    nth_error p' i = Some [] /\ forall x fs, ~ In (i, x, fs) tr.
  Proof.
    induction 1 as [p|p j x fs p' tr p'' H _ IH]; intros i Hi; [split; [exact Hi|intros ? ? []]|].
    inversion H as [? ? ? rest ? [Hj He]]; subst. assert (D : j <> i) by (intros ->; congruence).
    destruct (IH i) as [H1 H2]; [now rewrite set_nth_other|]. split; [exact H1|]. intros y gs [Eq|Hin]; [congruence|]. eapply H2; eauto.
  Qed.
  Lemma machine_order prog p tr p' : machine_run can prog p tr p' -> length p = length prog -> forall i j a b, i < j ->
    nth_error prog i = Some a -> nth_error prog j = Some b -> can a b = Ok false ->
    forall t1 x fs t2, tr = t1 ++ (j, x, fs) :: t2 -> forall y gs, ~ In (i, y, gs) t2.
  Proof.
    induction 1 as [p|p k z hs p' tr p'' H R IH]; intros Len i j a b Hij Pi Pj Hc t1 x fs t2 Et y gs; [destruct t1; discriminate|].
    inversion H as [? ? ? rest ? [Hk He]]; subst.
    destruct t1 as [|e t1]; cbn [app] in Et; injection Et as E1 E2.
    - subst. destruct (nth_ex p i) as [li Hli]; [apply nth_lt in Pi; lia|].
      destruct li as [|l0 li]; [|pose proof (He _ _ _ _ Hij Pi Pj Hli ltac:(discriminate)); congruence].
      destruct (machine_stays _ _ _ _ R i) as [_ W]; [rewrite set_nth_other by lia; exact Hli|]. apply W.
    - eapply IH; eauto. now rewrite set_nth_length.
  Qed.
  (** every instruction is worked on by the end *)
  Lemma machine_all prog p tr p' : machine_run can prog p tr p' -> finished p' -> forall i x rest, nth_error p i = Some (x :: rest) ->
    exists fs t1 t2, tr = t1 ++ (i, x, fs) :: t2 /\ forall y gs, ~ In (i, y, gs) t1.
  Proof.
    induction 1 as [p|p k z hs p' tr p'' H R IH]; intros Hf i x rest Hi.
    - exfalso. apply nth_error_In in Hi. apply Hf in Hi. discriminate.
    - inversion H as [? ? ? rest' ? [Hk He]]; subst. destruct (Nat.eq_dec k i) as [->|D].
      + rewrite Hi in Hk. injection Hk as <- <-. exists hs, [], tr. split; [reflexivity|]. intros ? ? [].
      + destruct (IH Hf i x rest) as (fs & t1 & t2 & -> & W); [now rewrite set_nth_other|].
        exists fs, ((k, z, hs) :: t1), t2. split; [reflexivity|]. intros y gs [Eq|Hin]; [congruence|]. eapply W; eauto.
  Qed.
End Sim.
