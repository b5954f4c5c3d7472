(** Proofs about the stabiliser semantics of lowered gates. *)
From Verif Require Import Base PatchesModel InstrModel InstrProofs GatesModel LoweringModel LoweringSpec LoweringProofs StabSpec.

Definition ext (G : gset) : Prop := forall f g, peq f g -> G f -> G g.
Lemma state_ext G : state G -> ext G. Proof. now intros (_ & _ & H). Qed.
Lemma same_refl G : same G G. Proof. firstorder. Qed.
Lemma same_sym G H : same G H -> same H G. Proof. intros A g. now rewrite (A g). Qed.
Lemma same_trans G H K : same G H -> same H K -> same G K.
Proof. intros A B g. now rewrite (A g). Qed.
Lemma peq_refl f : peq f f. Proof. intros q; reflexivity. Qed.
Lemma peq_sym f g : peq f g -> peq g f. Proof. intros H q; now rewrite H. Qed.
Lemma peq_trans f g h : peq f g -> peq g h -> peq f h. Proof. intros H K q; now rewrite H. Qed.

Lemma pmul1_cancel a b : pmul1 (pmul1 a b) b = a.
Proof. destruct a as [[] []], b as [[] []]; reflexivity. Qed.
Lemma pmul_cancel f g : peq (pmul (pmul f g) g) f.
Proof. intros q. apply pmul1_cancel. Qed.
Lemma pmul_congr f g h : peq f g -> peq (pmul f h) (pmul g h).
Proof. intros H q. unfold pmul. now rewrite H. Qed.
Lemma anti_congr o : forall f g, peq f g -> anticommutes f o = anticommutes g o.
Proof. induction o as [|[q p] o IH]; intros f g H; cbn; [reflexivity|]. now rewrite (IH _ _ H), H. Qed.
Lemma anti1_mul a b p : anti1 (pmul1 a b) p = xorb (anti1 a p) (anti1 b p).
Proof. destruct a as [[] []], b as [[] []], p as [[] []]; reflexivity. Qed.
Lemma anti_mul o : forall f g, anticommutes (pmul f g) o = xorb (anticommutes f o) (anticommutes g o).
Proof.
  induction o as [|[q p] o IH]; intros f g; cbn; [reflexivity|]. rewrite IH. unfold pmul at 1. rewrite anti1_mul.
  destruct (anti1 (f q) (bits p)), (anti1 (g q) (bits p)), (anticommutes f o), (anticommutes g o); reflexivity.
Qed.
Lemma anti1_sym a b : anti1 a b = anti1 b a. Proof. destruct a as [[] []], b as [[] []]; reflexivity. Qed.
Lemma anti1_self a : anti1 a a = false. Proof. destruct a as [[] []]; reflexivity. Qed.
Lemma anti_one o : anticommutes pone o = false.
Proof. induction o as [|[q p] o IH]; cbn; [reflexivity|]. now rewrite IH. Qed.
Lemma anti_at q p o : anticommutes (at_patch q p) o = anti1 (obs_op o q) p.
Proof.
  induction o as [|[r p'] o IH]; cbn; [reflexivity|]. rewrite IH. unfold pmul. rewrite anti1_mul. f_equal.
  unfold at_patch. rewrite (N.eqb_sym q r). destruct (N.eqb r q); [apply anti1_sym|reflexivity].
Qed.
Lemma anti_self o : anticommutes (obs_op o) o = false.
Proof.
  induction o as [|[q p] o IH]; [reflexivity|]. cbn [anticommutes obs_op]. rewrite anti_mul, IH, anti_at.
  unfold pmul, at_patch. rewrite N.eqb_refl, anti1_mul, anti1_self, xorb_false_l, xorb_false_r. apply xorb_nilpotent.
Qed.
Lemma power_true f : peq (power true f) f. Proof. intros q. unfold power. now destruct (f q). Qed.
Lemma power_false f : peq (power false f) pone. Proof. intros q. reflexivity. Qed.
Lemma anti_power e f o : anticommutes (power e f) o = e && anticommutes f o.
Proof. destruct e; [apply anti_congr, power_true|]. rewrite (anti_congr _ _ _ (power_false f)). apply anti_one. Qed.

(** Membership, read backwards. *)
Lemma measure_iff o G g : ext G -> measure o G g <-> anticommutes g o = false /\ exists e, G (pmul g (power e (obs_op o))).
Proof.
  intros X. split.
  - intros (f & e & Hf & A & E). split.
    + rewrite (anti_congr _ _ _ E), anti_mul, A, anti_power, anti_self. now destruct e.
    + exists e. eapply X; [|exact Hf]. apply peq_sym. eapply peq_trans; [apply pmul_congr; exact E|apply pmul_cancel].
  - intros (A & e & H). exists (pmul g (power e (obs_op o))), e. split; [exact H|]. split.
    + rewrite anti_mul, A, anti_power, anti_self. now destruct e.
    + apply peq_sym, pmul_cancel.
Qed.
Lemma prepare_iff a p G g : ext G -> prepare a p G g <-> exists e, G (pmul g (power e (at_patch a (bits p)))).
Proof.
  intros X. split.
  - intros (f & e & Hf & E). exists e. eapply X; [|exact Hf]. apply peq_sym. eapply peq_trans; [apply pmul_congr; exact E|apply pmul_cancel].
  - intros (e & H). exists (pmul g (power e (at_patch a (bits p)))), e. split; [exact H|]. apply peq_sym, pmul_cancel.
Qed.
Lemma image_iff F G g : ext G -> (forall f h, peq f h -> peq (F f) (F h)) -> (forall f, peq (F (F f)) f) ->
  image F G g <-> G (F g).
Proof.
  intros X C I. split.
  - intros (f & Hf & E). eapply X; [|exact Hf]. apply peq_sym. eapply peq_trans; [apply C; exact E|apply I].
  - intros H. exists (F g). split; [exact H|]. apply peq_sym, I.
Qed.
Lemma ext_measure o G : ext (measure o G).
Proof. intros f g E (h & e & H & A & P). exists h, e. split; [exact H|]. split; [exact A|]. eapply peq_trans; [apply peq_sym; exact E|exact P]. Qed.
Lemma ext_prepare a p G : ext (prepare a p G).
Proof. intros f g E (h & e & H & P). exists h, e. split; [exact H|]. eapply peq_trans; [apply peq_sym; exact E|exact P]. Qed.
Lemma ext_image F G : ext (image F G).
Proof. intros f g E (h & H & P). exists h. split; [exact H|]. eapply peq_trans; [apply peq_sym; exact E|exact P]. Qed.
Lemma ext_discard a G : ext G -> ext (discard a G).
Proof. intros X f g E [H D]. split; [eapply X; eauto|]. now rewrite <- E. Qed.

Lemma conj_h_congr t f h : peq f h -> peq (conj_h t f) (conj_h t h).
Proof. intros E q. unfold conj_h. now rewrite E. Qed.
Lemma conj_h_inv t f : peq (conj_h t (conj_h t f)) f.
Proof. intros q. unfold conj_h. destruct (N.eqb q t); [|reflexivity]. cbn. now destruct (f q). Qed.
Lemma conj_s_congr t f h : peq f h -> peq (conj_s t f) (conj_s t h).
Proof. intros E q. unfold conj_s. now rewrite E. Qed.
Lemma conj_s_inv t f : peq (conj_s t (conj_s t f)) f.
Proof. intros q. unfold conj_s. destruct (N.eqb q t); [|reflexivity]. cbn. destruct (f q) as [[] []]; reflexivity. Qed.
Lemma conj_cnot_congr c t f h : peq f h -> peq (conj_cnot c t f) (conj_cnot c t h).
Proof. intros E q. unfold conj_cnot. now rewrite !E. Qed.
Lemma conj_cnot_inv c t f : c <> t -> peq (conj_cnot c t (conj_cnot c t f)) f.
Proof.
  intros H q. unfold conj_cnot. rewrite !N.eqb_refl, (proj2 (N.eqb_neq t c)) by auto.
  destruct (N.eqb_spec q c) as [->|?]; [|destruct (N.eqb_spec q t) as [->|?]; [|reflexivity]]; cbn.
  - destruct (f c) as [[] []], (f t) as [[] []]; reflexivity.
  - destruct (f c) as [[] []], (f t) as [[] []]; reflexivity.
Qed.

Ltac exts := repeat first [apply ext_measure|apply ext_prepare|apply ext_image|apply ext_discard|assumption].
Ltac backwards := repeat first
  [rewrite measure_iff by exts|rewrite prepare_iff by exts
  |rewrite image_iff by first [solve [exts]|apply conj_h_congr|apply conj_h_inv|apply conj_s_congr|apply conj_s_inv|apply conj_cnot_congr|intros ?; apply conj_cnot_inv; congruence]].

(** Evaluate at a patch, given which ids differ. *)
Ltac neqs := repeat match goal with
  | |- context[N.eqb ?a ?a] => rewrite (N.eqb_refl a)
  | H : ?a <> ?b |- context[N.eqb ?a ?b] => rewrite (proj2 (N.eqb_neq a b) H)
  | H : ?a <> ?b |- context[N.eqb ?b ?a] => rewrite (proj2 (N.eqb_neq b a) (fun E => H (eq_sym E)))
  end.
Ltac neqs_in K := repeat match type of K with
  | context[N.eqb ?a ?a] => rewrite (N.eqb_refl a) in K
  | context[N.eqb ?a ?b] => match goal with
     | H : a <> b |- _ => rewrite (proj2 (N.eqb_neq a b) H) in K
     | H : b <> a |- _ => rewrite (proj2 (N.eqb_neq a b) (fun E => H (eq_sym E))) in K
     end
  end.
Ltac open_ := cbv [pmul pmul1 power at_patch pone conj_h conj_s conj_cnot obs_op bits anticommutes anti1 fst snd].
Ltac open_in K := cbv [pmul pmul1 power at_patch pone conj_h conj_s conj_cnot obs_op bits anticommutes anti1 fst snd] in K.


(** Compare two operators patch by patch; [known] rewrites the values at the
    named patches. *)
Ltac pointwise f ids known :=
  let q := fresh "q" in intros q;
  let rec go l := lazymatch l with
    | nil => idtac
    | cons ?a ?r => destruct (N.eqb_spec q a) as [->|?]; [|go r]
    end in
  go ids; open_; neqs; known tt; first [reflexivity|destruct (f q) as [[] []]; reflexivity].

Ltac search X H f ids known :=
  lazymatch goal with
  | |- _ /\ _ => split; search X H f ids known
  | |- exists e : bool, _ => solve [exists true; search X H f ids known | exists false; search X H f ids known]
  | |- discard _ _ _ => split; search X H f ids known
  | |- measure _ _ _ => rewrite measure_iff by exts; search X H f ids known
  | |- prepare _ _ _ _ => rewrite prepare_iff by exts; search X H f ids known
  | |- image _ _ _ => rewrite image_iff by first [solve [exts]|apply conj_h_congr|apply conj_h_inv|apply conj_s_congr|apply conj_s_inv|apply conj_cnot_congr|intros ?; apply conj_cnot_inv; congruence];
      search X H f ids known
  | |- _ = _ => open_; neqs; known tt; reflexivity
  | |- _ => eapply X; [|exact H]; pointwise f ids known
  end.

(** Take apart a membership hypothesis, down to one about the initial set. *)
Ltac unwind H :=
  lazymatch type of H with
  | discard _ _ _ => let D := fresh "D" in destruct H as [H D]; unwind H
  | measure _ _ _ => rewrite measure_iff in H by exts; let A := fresh "A" in let e := fresh "e" in destruct H as (A & e & H); unwind H
  | prepare _ _ _ _ => rewrite prepare_iff in H by exts; let e := fresh "e" in destruct H as (e & H); unwind H
  | image _ _ _ => rewrite image_iff in H by first [solve [exts]|apply conj_h_congr|apply conj_h_inv|apply conj_s_congr|apply conj_s_inv|apply conj_cnot_congr|intros ?; apply conj_cnot_inv; congruence]; unwind H
  | _ => idtac
  end.
Ltac facts g known := repeat match goal with
  | A : anticommutes _ _ = false |- _ => open_in A; neqs_in A; known A; revert A
  | D : ?f _ = (false, false) |- _ => open_in D; neqs_in D; known D; revert D
  end.
Ltac bools := repeat match goal with b : bool |- _ => destruct b end.

Section Cnot.
  Variables (c t a : N) (G : gset).
  Hypothesis (Hct : c <> t) (Hca : c <> a) (Hta : t <> a) (HG : state G) (Hu : unused a G).
  Let X : ext G := state_ext G HG.

  Ltac compare3 :=
    let g := fresh "g" in let H := fresh "H" in
    intros g; destruct (g c) as [xc zc] eqn:Gc, (g t) as [xt zt] eqn:Gt, (g a) as [xa za] eqn:Ga;
    split; intros H; unwind H;
    let U := fresh "U" in pose proof (Hu _ H) as U; 
    facts g ltac:(fun K => rewrite ?Gc, ?Gt, ?Ga in K); clear Hu;
    (bools; cbn [fst snd xorb andb]; intros; try discriminate;
     search X H g (cons c (cons t (cons a nil))) ltac:(fun _ => rewrite ?Gc, ?Gt, ?Ga)).

  (** The two measurement orders of the code. *)
  Lemma control_first_measures :
    same (discard a (measure [(a, PX)] (measure [(a, PX); (t, PX)] (measure [(c, PZ); (a, PZ)] (prepare a PX G)))))
         (measure [(t, PX)] G).
  Proof. compare3. Qed.
  Lemma target_first_measures :
    same (discard a (measure [(a, PX)] (measure [(c, PZ); (a, PZ)] (measure [(a, PX); (t, PX)] (prepare a PX G)))))
         (measure [(t, PX)] G).
  Proof. compare3. Qed.
  (** What the code should do instead: measure the ancilla's Z, or prepare it in
      the zero state. *)
  Lemma control_first_fixed :
    same (discard a (measure [(a, PZ)] (measure [(a, PX); (t, PX)] (measure [(c, PZ); (a, PZ)] (prepare a PX G)))))
         (image (conj_cnot c t) G).
  Proof. compare3. Qed.
  Lemma target_first_fixed :
    same (discard a (measure [(a, PX)] (measure [(c, PZ); (a, PZ)] (measure [(a, PX); (t, PX)] (prepare a PZ G)))))
         (image (conj_cnot c t) G).
  Proof. compare3. Qed.
End Cnot.

Section SGate.
  Variables (t y : N) (G : gset).
  Hypothesis (Hty : t <> y) (HG : state G) (Hu : unused y G).
  Let X : ext G := state_ext G HG.
  Ltac compare2 :=
    let g := fresh "g" in let H := fresh "H" in
    intros g; destruct (g t) as [xt zt] eqn:Gt, (g y) as [xa za] eqn:Ga;
    split; intros H; unwind H;
    let U := fresh "U" in pose proof (Hu _ H) as U; 
    facts g ltac:(fun K => rewrite ?Gt, ?Ga in K); clear Hu;
    (bools; cbn [fst snd xorb andb]; intros; try discriminate;
     search X H g (cons t (cons y nil)) ltac:(fun _ => rewrite ?Gt, ?Ga)).
  Lemma teleported_s :
    same (discard y (measure [(y, PX)] (measure [(y, PZ); (t, PZ)] (prepare y PY G)))) (image (conj_s t) G).
  Proof. compare2. Qed.
  (** before and after giving the Y state back *)
  Lemma catalytic_s :
    same (image (conj_h y) (image (conj_cnot t y) (image (conj_h y) (image (conj_cnot t y) (prepare y PY G)))))
         (prepare y PY (image (conj_s t) G)).
  Proof. compare2. Qed.
  Lemma give_back p : p <> PI -> same (discard y (prepare y p G)) G.
  Proof. destruct p; try congruence; intros _; compare2. Qed.
  Lemma measured_twice :
    same (image (conj_h y) (measure [(y, PX)] (image (conj_h y) (measure [(y, PX)] (prepare y PY G)))))
         (prepare y PZ G).
  Proof. compare2. Qed.
End SGate.

(** ** Composition *)
Lemma run_app a : forall b G, run (a ++ b) G = match run a G with Some G' => run b G' | None => None end.
Proof. induction a as [|i a IH]; intros b G; cbn [run app]; [reflexivity|]. destruct (act i G); auto. Qed.
Lemma same_measure o G H : same G H -> same (measure o G) (measure o H).
Proof. intros S g. split; intros (f & e & Hf & R); exists f, e; (split; [now apply S|exact R]). Qed.
Lemma same_prepare a p G H : same G H -> same (prepare a p G) (prepare a p H).
Proof. intros S g. split; intros (f & e & Hf & R); exists f, e; (split; [now apply S|exact R]). Qed.
Lemma same_image F G H : same G H -> same (image F G) (image F H).
Proof. intros S g. split; intros (f & Hf & R); exists f; (split; [now apply S|exact R]). Qed.
Lemma same_discard a G H : same G H -> same (discard a G) (discard a H).
Proof. intros S g. split; intros (Hf & R); (split; [now apply S|exact R]). Qed.
Definition same_opt (a b : option gset) : Prop :=
  match a, b with Some G, Some H => same G H | None, None => True | _, _ => False end.
Lemma act_same i G H : same G H -> same_opt (act i G) (act i H).
Proof.
  intros S. unfold act. destruct (op i) as [| | | | | | a st pl|t o d|q| |cc tt s1 s2 r1 r2 r3 r4|]; cbn [same_opt]; auto using same_measure, same_discard, same_image.
  all: try (match goal with |- context[match ?x with _ => _ end] => destruct x end); cbn [same_opt]; auto using same_measure, same_discard, same_image, same_prepare.
Qed.
Lemma run_same l : forall G H, same G H -> same_opt (run l G) (run l H).
Proof.
  induction l as [|i l IH]; intros G H S; [exact S|]. cbn [run]. pose proof (act_same i _ _ S) as A.
  destruct (act i G), (act i H); cbn [same_opt] in A; try contradiction; [now apply IH|exact I].
Qed.
Lemma run_then l G G1 H1 r H2 : run l G = Some G1 -> same G1 H1 -> run r H1 = Some H2 ->
  exists G2, run (l ++ r) G = Some G2 /\ same G2 H2.
Proof.
  intros E S R. rewrite run_app, E. pose proof (run_same r _ _ S) as A. rewrite R in A.
  destruct (run r G1) as [G2|]; [|contradiction]. eauto.
Qed.

Lemma state_same G H : state G -> same G H -> state H.
Proof.
  intros (O & M & X) S. split; [now apply S|]. split.
  - intros f g Hf Hg. apply S. apply M; now apply S.
  - intros f g E Hf. apply S. eapply X; [exact E|]. now apply S.
Qed.
Lemma unused_same a G H : unused a G -> same G H -> unused a H.
Proof. intros U S g Hg. apply U. now apply S. Qed.
Lemma pmul_shuffle a b c d : peq (pmul (pmul a b) (pmul c d)) (pmul (pmul a c) (pmul b d)).
Proof. intros q. unfold pmul, pmul1. cbn. destruct (a q) as [[] []], (b q) as [[] []], (c q) as [[] []], (d q) as [[] []]; reflexivity. Qed.
Lemma power_mul e e' f : peq (pmul (power e f) (power e' f)) (power (xorb e e') f).
Proof. intros q. unfold pmul, pmul1, power. cbn. destruct (f q) as [[] []], e, e'; reflexivity. Qed.
Lemma pmul_congr2 f g f' g' : peq f f' -> peq g g' -> peq (pmul f g) (pmul f' g').
Proof. intros A B q. unfold pmul. now rewrite A, B. Qed.
Lemma state_prepare a p G : state G -> state (prepare a p G).
Proof.
  intros (O & M & X). split; [|split; [|apply ext_prepare]].
  - exists pone, false. split; [exact O|]. intros q; reflexivity.
  - intros f g (f1 & e1 & H1 & E1) (f2 & e2 & H2 & E2). exists (pmul f1 f2), (xorb e1 e2). split; [auto|].
    eapply peq_trans; [apply pmul_congr2; eassumption|]. eapply peq_trans; [apply pmul_shuffle|]. apply pmul_congr2; [apply peq_refl|apply power_mul].
Qed.
Lemma state_measure o G : state G -> state (measure o G).
Proof.
  intros (O & M & X). split; [|split; [|apply ext_measure]].
  - exists pone, false. split; [exact O|]. split; [apply anti_one|intros q; reflexivity].
  - intros f g (f1 & e1 & H1 & A1 & E1) (f2 & e2 & H2 & A2 & E2). exists (pmul f1 f2), (xorb e1 e2). split; [auto|].
    split; [now rewrite anti_mul, A1, A2|].
    eapply peq_trans; [apply pmul_congr2; eassumption|]. eapply peq_trans; [apply pmul_shuffle|]. apply pmul_congr2; [apply peq_refl|apply power_mul].
Qed.
Lemma state_h t G : state G -> state (image (conj_h t) G).
Proof.
  intros (O & M & X). split; [|split; [|apply ext_image]].
  - exists pone. split; [exact O|]. intros q. unfold conj_h, pone. now destruct (N.eqb q t).
  - intros f g (f1 & H1 & E1) (f2 & H2 & E2). exists (pmul f1 f2). split; [auto|].
    intros q. unfold pmul. rewrite E1, E2. unfold conj_h, pmul1. destruct (N.eqb q t); reflexivity.
Qed.
Lemma unused_prepare a b p G : a <> b -> unused a G -> unused a (prepare b p G).
Proof.
  intros D U g (f & e & Hf & E). rewrite E. unfold pmul, power, at_patch. rewrite (U _ Hf), (proj2 (N.eqb_neq a b) D).
  now destruct e.
Qed.
Lemma unused_measure1 a b p G : a <> b -> unused a G -> unused a (measure [(b, p)] G).
Proof.
  intros D U g (f & e & Hf & _ & E). rewrite E. cbn [obs_op]. unfold pmul, power, at_patch, pone, pmul1. rewrite (U _ Hf), (proj2 (N.eqb_neq a b) D).
  now destruct e.
Qed.
Lemma unused_h a b G : a <> b -> unused a G -> unused a (image (conj_h b) G).
Proof. intros D U g (f & Hf & E). rewrite E. unfold conj_h. now rewrite (proj2 (N.eqb_neq a b) D), (U _ Hf). Qed.

(** ** What the compiler's sequences do *)
Lemma cnot_run c ctl t ct pl corr l c' : ct <> BellBased -> make_cnot false c ctl t ct pl corr = Ok (l, c') ->
  ctl <> t -> ctl <> (c mod 2 ^ 32)%N -> t <> (c mod 2 ^ 32)%N ->
  acts_as [(c mod 2 ^ 32)%N] l (measure [(t, PX)]).
Proof.
  intros Hb H D1 D2 D3 G HG Hu. specialize (Hu _ (or_introl eq_refl)). unfold make_cnot, new_id in H.
  set (a := (c mod 2 ^ 32)%N) in *. unfold obs2 in H.
  rewrite (proj2 (N.eqb_neq ctl a) D2), (proj2 (N.eqb_neq a t) (fun E => D3 (eq_sym E))) in H.
  destruct ct; [| |congruence]; destruct corr; cbn [app] in H; 
    (assert (E : l = l) by reflexivity; injection H as <- <-; clear E; eexists; split; [reflexivity|]);
    first [now apply control_first_measures|now apply target_first_measures].
Qed.
Lemma bell_run local c ctl t ct pl l c' : local = true \/ ct = BellBased -> make_cnot local c ctl t ct pl CorrNever = Ok (l, c') ->
  acts_as [] l (image (conj_cnot ctl t)).
Proof.
  intros Hb H G HG Hu. unfold make_cnot, new_id in H.
  assert (E : l = [mkI (BellCNOT ctl t (c mod 2 ^ 32) ((c + 1) mod 2 ^ 32) None None None None) SIZE_MAX (ids2 ctl t)])
    by (destruct Hb as [-> | ->]; [destruct ct|destruct local]; congruence).
  subst l. eexists. split; [reflexivity|apply same_refl].
Qed.
