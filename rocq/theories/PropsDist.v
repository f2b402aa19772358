(** C45, C46: minimal sentence lengths and distances between dots. *)

From Coq Require Import List Arith NArith Bool String Lia.
From Verif Require Import Base Spec SetView SpecDist GrammarFacts ListFacts LoopModel SymbolModel HistoryModel CfgModel View
  BitSetModel ClosureModel SetProof ValueProof DistModel LengthProof DistProof DistSem DistProof2 DistTotal DistNoPanic
  PropsGrammar PropsSets PropsClassify.
Import ListNotations.
Local Notation length := List.length.

Ltac prods_tac := match goal with |- prods ?g ?A ?r => exists (mkRule A r hd0); split; [simpl; tauto|split; reflexivity] end.
Ltac terminal_tac := let r := fresh in let x := fresh in let Hx := fresh in let HL := fresh in
  intros r [x [Hx [HL _]]]; simpl in Hx; repeat (destruct Hx as [<-|Hx]; [simpl in HL; lia|]); destruct Hx.

(** ** C45 *)

(** In a debug build that does not stop at an overflow, and for any lengths that an earlier call
    left behind. *)
Theorem C45_lengths_exact_partial : forall g v v', closed_rules g ->
  length v = num_syms g ->
  (forall s c, value_of v s = Some c -> (c <= u32_max)%N /\ exists w, language (prods g) s w /\ N.of_nat (length w) = c) ->
  minimal_sentence_lengths true g v = Ok v' ->
  length v' = num_syms g /\
  forall s, s < num_syms g ->
    least (fun c => exists w, language (prods g) s w /\ N.of_nat (length w) = c) (value_of v' s).
Proof.
  intros g v v' HC HL HV E. destruct (lengths_exact g v v' HC) as [[A _] B]; auto.
  split; auto. intros s c H. destruct (HV s c H) as [X Y]. split; auto.
Qed.
Print Assumptions C45_lengths_exact_partial.

(** No panic, and the same result in the release build, when no sum exceeds u32.  The sums range over
    derivation trees in which no symbol is repeated on a path; a terminal has length 1 and a
    symbol with an empty rule has length 0. *)
Theorem C45_lengths_total_partial : forall g, closed_rules g ->
  (forall v0, length_start (prods g) (fun _ => None) v0 (num_syms g) ->
   forall A r pre suf c, prods g A r -> r = pre ++ suf -> short_forest (prods g) v0 [] pre c -> (c <= u32_max)%N) ->
  exists v', forall debug, minimal_sentence_lengths debug g (md_min_length (md_new g)) = Ok v'.
Proof. intros g HC HF. exact (lengths_total g HC HF). Qed.
Print Assumptions C45_lengths_total_partial.

(** All shortest strings have length 1, but sums of longer strings exceed u32: the debug build panics,
    and the release build reports 0 for the first symbol. *)
Definition ex_long : cfg :=
  mkCfg (mkSrc 36 []) (map (fun i => mkRule i [S i; S i] hd0) (seq 0 33) ++ [mkRule 33 [35] hd0] ++
                       map (fun i => mkRule i [34] hd0) (seq 0 33)) [] [] None.
Theorem C45_lengths_refuted : exists g, closed g /\
  (forall s, s < num_syms g -> least (fun c => exists w, language (prods g) s w /\ N.of_nat (length w) = c) (Some 1%N)) /\
  minimal_sentence_lengths true g (md_min_length (md_new g)) = Panic /\
  exists v, minimal_sentence_lengths false g (md_min_length (md_new g)) = Ok v /\ value_of v 0 = Some 0%N.
Proof.
  exists ex_long.
  assert (HR : forall x, In x (rules ex_long) -> lhs x < 34 /\ Forall (fun s => s < 36) (rhs x) /\ rhs x <> []).
  { intros x Hx. cbn [rules ex_long] in Hx. apply in_app_iff in Hx. destruct Hx as [Hx|Hx].
    - apply in_map_iff in Hx. destruct Hx as [i [<- Hi]]. apply in_seq in Hi. cbn [lhs rhs]. split; [lia|].
      split; [repeat (apply Forall_cons; [lia|]); apply Forall_nil|discriminate].
    - apply in_app_iff in Hx. destruct Hx as [[<-|[]]|Hx].
      + cbn [lhs rhs]. split; [lia|]. split; [repeat (apply Forall_cons; [lia|]); apply Forall_nil|discriminate].
      + apply in_map_iff in Hx. destruct Hx as [i [<- Hi]]. apply in_seq in Hi. cbn [lhs rhs]. split; [lia|].
        split; [repeat (apply Forall_cons; [lia|]); apply Forall_nil|discriminate]. }
  assert (HT : forall s, 34 <= s -> terminal (prods ex_long) s).
  { intros s Hs r [x [Hx [<- _]]]. apply HR in Hx. lia. }
  assert (HS : forall s, s < 34 -> prods ex_long s [if s =? 33 then 35 else 34]).
  { intros s Hs. destruct (Nat.eqb_spec s 33) as [->|Hn].
    - exists (mkRule 33 [35] hd0). split; [|split; reflexivity]. cbn [rules ex_long]. apply in_app_iff. right.
      apply in_app_iff. left. left. reflexivity.
    - exists (mkRule s [34] hd0). split; [|split; reflexivity]. cbn [rules ex_long]. apply in_app_iff. right.
      apply in_app_iff. right. apply in_map_iff. exists s. split; auto. apply in_seq. lia. }
  assert (HN : forall u w, derives (prods ex_long) u w -> u <> [] -> w <> []).
  { induction 1 as [u|u A v r w HP HD IH]; auto. intros _. apply IH. destruct HP as [x [Hx [_ <-]]].
    apply HR in Hx. destruct Hx as [_ [_ Hx]]. destruct u; [|discriminate]. destruct (rhs x); [congruence|discriminate]. }
  split.
  { split; [|split; constructor]. intros x Hx. change (num_syms ex_long) with 36. apply HR in Hx. split; [lia|apply Hx]. }
  split.
  { intros s Hs. change (s < 36) in Hs. split.
    - destruct (le_lt_dec 34 s) as [H|H].
      + exists [s]. split; auto. split; [constructor|]. constructor; auto.
      + exists [if s =? 33 then 35 else 34]. split; auto. split; [apply derives_rule; auto|].
        constructor; auto. apply HT. destruct (s =? 33); lia.
    - intros c [w [[HD _] <-]]. apply HN in HD; [|discriminate]. destruct w; [congruence|]. cbn [length]. lia. }
  split; [vm_compute; reflexivity|]. eexists. split; vm_compute; reflexivity.
Qed.
Print Assumptions C45_lengths_refuted.

(** cfg-predict-distance/tests: A ::= ; S ::= A x B C y ; S ::= C ; ... *)
Definition ex_dist : cfg :=
  mkCfg (mkSrc 6 []) [mkRule 1 [] hd0; mkRule 0 [1; 4; 2; 3; 5] hd0; mkRule 0 [3] hd0; mkRule 2 [1; 1] hd0;
                      mkRule 2 [1; 3] hd0; mkRule 3 [4] hd0; mkRule 3 [5] hd0] [] [] None.
Example C45_example : closed_rules ex_dist /\
  (forall debug, minimal_sentence_lengths debug ex_dist (md_min_length (md_new ex_dist)) =
     Ok [Some 1; Some 0; Some 0; Some 1; Some 1; Some 1]%N) /\
  (* what an earlier call leaves behind can be used again *)
  minimal_sentence_lengths true ex_dist [Some 1; Some 0; Some 0; Some 1; Some 1; Some 1]%N =
     Ok [Some 1; Some 0; Some 0; Some 1; Some 1; Some 1]%N.
Proof. split; [closed_tac|]. split; [intros []|]; vm_compute; reflexivity. Qed.

(** The condition of [C45_lengths_total_partial] holds for this grammar. *)
Lemma short_forest_ext : forall P v v' avoid u c, (forall s, v s = v' s) ->
  short_forest P v avoid u c -> short_forest P v' avoid u c.
Proof.
  intros P v v' avoid u c HE H. induction H as [av|av s u c d Ha Hv _ IH|av A r u c d Ha HP Hn _ IH1 _ IH2].
  - constructor.
  - apply sf_leaf; auto. rewrite <- HE. auto.
  - eapply sf_node; eauto.
Qed.
Example C45_total_example : forall v0, length_start (prods ex_dist) (fun _ => None) v0 (num_syms ex_dist) ->
  forall A r pre suf c, prods ex_dist A r -> r = pre ++ suf -> short_forest (prods ex_dist) v0 [] pre c -> (c <= u32_max)%N.
Proof.
  intros v0 H0 A r pre suf c HP HE HS.
  apply (sums_cap_spec ex_dist [None; Some 0; None; None; Some 1; Some 1]%N) with (A := A) (r := r) (pre := pre) (suf := suf); auto.
  apply short_forest_ext with (v := v0); auto. clear - H0. intros s. destruct (H0 s) as [H1 [H2 H3]]. change (num_syms ex_dist) with 6 in *.
  assert (HN : s <> 1 -> ~ prods ex_dist s []).
  { intros Hs [x [Hx [HL HR]]]. simpl in Hx. repeat (destruct Hx as [<-|Hx]; [simpl in HL, HR; congruence|]). destruct Hx. }
  assert (HT : forall r, prods ex_dist s r -> ~ terminal (prods ex_dist) s) by (intros r Hr X; exact (X r Hr)).
  destruct (Nat.eq_dec s 1) as [->|N1]; [apply H1; prods_tac|].
  destruct (Nat.eq_dec s 4) as [->|N4]; [apply H2; [lia|terminal_tac]|].
  destruct (Nat.eq_dec s 5) as [->|N5]; [apply H2; [lia|terminal_tac]|].
  rewrite H3; [|auto|].
  - destruct s as [|[|[|[|[|[|s]]]]]]; try lia; try reflexivity. unfold value_of. cbn. destruct s; reflexivity.
  - intros Hs. destruct s as [|[|[|[|[|[|s]]]]]]; try lia; eapply HT.
    + instantiate (1 := [3]). prods_tac.
    + instantiate (1 := [1; 1]). prods_tac.
    + instantiate (1 := [4]). prods_tac.
Qed.

(** ** C46 *)

(** A call of minimal_distances: which of several equal dots are found, the target dots and the
    direction. *)
Record call := mkCall { cl_skip : nat -> nat; cl_dots : list (nat * nat); cl_dir : direction }.
Definition run_calls (debug : bool) (g : cfg) (l : list call) (m : min_dist) : res min_dist :=
  fold_res (fun m c => minimal_distances debug (cl_skip c) g m (cl_dots c) (cl_dir c)) l m.
Definition fwd_target (l : list call) (t : nat * nat) : Prop :=
  exists c, In c l /\ cl_dir c <> Backward /\ In t (cl_dots c).
Definition bwd_target (l : list call) (t : nat * nat) : Prop :=
  exists c, In c l /\ cl_dir c <> Forward /\ In t (cl_dots c).
Lemma forward_iff : forall d, includes_forward d = true <-> d <> Backward.
Proof. intros []; cbn; split; congruence. Qed.
Lemma backward_iff : forall d, includes_backward d = true <-> d <> Forward.
Proof. intros []; cbn; split; congruence. Qed.
Definition reported (m : min_dist) (i d : nat) (c : N) : Prop :=
  exists row, nth_error (md_distances m) i = Some row /\ value_of row d = Some c.
(** The rules of a grammar without their histories. *)
Definition rule_list (g : cfg) : list (nat * list nat) := map (fun r => (lhs r, rhs r)) (rules g).

Lemma run_sound : forall g (Tf Tb : nat * nat -> Prop) calls m m', closed_rules g ->
  (forall t, fwd_target calls t -> Tf t) -> (forall t, bwd_target calls t -> Tb t) ->
  dsound g Tf Tb m -> lengths_ok g (md_min_length m) -> ready g m ->
  run_calls true g calls m = Ok m' -> dsound g Tf Tb m'.
Proof.
  intros g Tf Tb calls. induction calls as [|c calls IH]; intros m m' HC HF HB HD HL HR H; cbn [run_calls fold_res] in H.
  - injection H as <-. auto.
  - apply bind_ok in H. destruct H as [m1 [E1 H]]. apply (IH m1); auto.
    + intros t [c' [X Y]]. apply HF. exists c'. split; [right|]; auto.
    + intros t [c' [X Y]]. apply HB. exists c'. split; [right|]; auto.
    + eapply distances_sound; eauto.
      * intros X t Ht. apply HF. exists c. split; [left|]; auto. split; auto. apply forward_iff, X.
      * intros X t Ht. apply HB. exists c. split; [left|]; auto. split; auto. apply backward_iff, X.
    + unfold minimal_distances in E1. apply bind_ok in E1. destruct E1 as [v [EV E1]].
      apply bind_ok in E1. destruct E1 as [m2 [E2 E1]].
      destruct (lengths_exact g _ v HC HL EV) as [HV _].
      assert (F : md_min_length m1 = v); [|rewrite F; auto].
      pose proof (immediate_frame _ _ _ _ _ _ _ E2) as [F2 _]. cbn [md_min_length] in F2.
      rewrite <- F2. apply transitive_frame in E1. apply E1.
    + apply (distances_end true (cl_skip c) g m (cl_dots c) (cl_dir c) HC HR). auto.
Qed.

Lemma new_sound : forall g (Tf Tb : nat * nat -> Prop), dsound g Tf Tb (md_new g).
Proof.
  intros g Tf Tb. constructor; cbn; intros s c; rewrite ?value_none; try discriminate. intros d x Hs.
  rewrite nth_error_map in Hs. destruct (nth_error (rules g) s); [|discriminate]. injection Hs as <-.
  rewrite value_none. discriminate.
Qed.

(** After any calls, in a debug build: a distance reported for a dot is the length of a terminal string
    that leads from the dot to a target, for the forward direction, or from a target to the dot,
    for the backward direction; but in the rule of a backward target at position [p] it may
    belong to the dot [p] positions further. *)
Theorem C46_distances_realized_partial : forall g calls m i d c, closed_rules g ->
  run_calls true g calls (md_new g) = Ok m -> reported m i d c ->
  (exists t w, fwd_target calls t /\ leads (rule_list g) (num_syms g) (i, d) t w /\ N.of_nat (length w) = c) \/
  (exists t w, bwd_target calls t /\ leads (rule_list g) (num_syms g) t (i, d) w /\ N.of_nat (length w) = c) \/
  (exists t w p, bwd_target calls t /\ bwd_target calls (i, p) /\ 0 < p /\
     leads (rule_list g) (num_syms g) t (i, d + p) w /\ N.of_nat (length w) = c).
Proof.
  intros g calls m i d c HC E [row [ER EV]].
  assert (HS : dsound g (fwd_target calls) (bwd_target calls) m).
  { eapply run_sound; try exact E; auto using new_sound, new_ready.
    split; [apply repeat_length|]. intros s x. cbn. rewrite value_none. discriminate. }
  exact (di_dist _ _ _ _ _ HS i row d c ER EV).
Qed.
Print Assumptions C46_distances_realized_partial.

(** Hence the claim holds when backward targets are at the start of their rules. *)
Theorem C46_distances_at_starts_partial : forall g calls m i d c, closed_rules g ->
  (forall t, bwd_target calls t -> snd t = 0) ->
  run_calls true g calls (md_new g) = Ok m -> reported m i d c ->
  (exists t w, fwd_target calls t /\ leads (rule_list g) (num_syms g) (i, d) t w /\ N.of_nat (length w) = c) \/
  (exists t w, bwd_target calls t /\ leads (rule_list g) (num_syms g) t (i, d) w /\ N.of_nat (length w) = c).
Proof.
  intros g calls m i d c HC HB E R.
  destruct (C46_distances_realized_partial g calls m i d c HC E R) as [H|[H|[t [w [p [_ [H [Hp _]]]]]]]]; auto.
  apply HB in H. simpl in H. lia.
Qed.
Print Assumptions C46_distances_at_starts_partial.

(** The computation ends, in both builds, with or without a panic. *)
Theorem C46_terminates : forall debug g calls, closed_rules g -> run_calls debug g calls (md_new g) <> OutOfFuel.
Proof.
  intros debug g calls HC. generalize (new_ready g). generalize (md_new g).
  induction calls as [|c calls IH]; intros m HR; cbn [run_calls fold_res]; [discriminate|].
  destruct (distances_end debug (cl_skip c) g m (cl_dots c) (cl_dir c) HC HR) as [A B].
  destruct (minimal_distances debug (cl_skip c) g m (cl_dots c) (cl_dir c)) as [m1| |]; cbn [bind]; [|discriminate|congruence].
  apply IH. auto.
Qed.
Print Assumptions C46_terminates.

(** A release build computes what a debug build does if that does not panic. *)
Theorem C46_release_partial : forall g calls m,
  run_calls true g calls (md_new g) = Ok m -> run_calls false g calls (md_new g) = Ok m.
Proof.
  intros g calls m. generalize (md_new g). induction calls as [|c calls IH]; intros a H; cbn [run_calls fold_res] in *; auto.
  apply bind_ok in H. destruct H as [m1 [E1 H]]. apply distances_release in E1. rewrite E1. cbn [bind]. apply IH. exact H.
Qed.
Print Assumptions C46_release_partial.

(** No panic in both builds if the target dots exist, every right-hand side derives a terminal string of at
    most [L] symbols, the product of [L] and the number of symbols plus one fits u32, and the
    minimal lengths can be computed without overflow. *)
Theorem C46_no_panic_partial : forall g L skip dots d, closed_rules g ->
  (forall i p, In (i, p) dots -> forall r, nth_error (rules g) i = Some r -> p <= length (rhs r)) ->
  (forall r, In r (rules g) -> exists w, derives (prods g) (rhs r) w /\ Forall (terminal (prods g)) w /\
     (N.of_nat (length w) <= L)%N) ->
  ((N.of_nat (num_syms g) + 1) * L <= u32_max)%N ->
  (forall v0, length_start (prods g) (fun _ => None) v0 (num_syms g) ->
   forall A r pre suf c, prods g A r -> r = pre ++ suf -> short_forest (prods g) v0 [] pre c -> (c <= u32_max)%N) ->
  exists m, forall debug, minimal_distances debug skip g (md_new g) dots d = Ok m.
Proof. intros g L skip dots d HC HD HW HL HF. eapply distances_total; eauto. Qed.
Print Assumptions C46_no_panic_partial.

Example C46_no_panic_example : (forall i p, In (i, p) [(1, 3)] -> forall r, nth_error (rules ex_dist) i = Some r -> p <= length (rhs r)) /\
  (forall r, In r (rules ex_dist) -> exists w, derives (prods ex_dist) (rhs r) w /\ Forall (terminal (prods ex_dist)) w /\
     (N.of_nat (length w) <= 3)%N) /\
  ((N.of_nat (num_syms ex_dist) + 1) * 3 <= u32_max)%N.
Proof.
  assert (D1 : derives (prods ex_dist) [1] []) by (apply derives_rule; prods_tac).
  assert (D2 : derives (prods ex_dist) [2] []).
  { eapply derives_rule_then with (r := [1; 1]); [prods_tac|]. apply (derives_cons _ 1 [1] [] []); auto. }
  assert (D3 : derives (prods ex_dist) [3] [4]) by (apply derives_rule; prods_tac).
  assert (T4 : terminal (prods ex_dist) 4) by terminal_tac. assert (T5 : terminal (prods ex_dist) 5) by terminal_tac.
  split; [|split; [|vm_compute; discriminate]].
  - intros i p [E|[]] r Hr. injection E as <- <-. injection Hr as <-. simpl. lia.
  - intros r Hr. simpl in Hr. repeat (destruct Hr as [<-|Hr]; [cbn [rhs]|]); [..|destruct Hr].
    + exists []. split; [constructor|]. split; [constructor|cbn; lia].
    + exists [4; 4; 5]. split; [|split; [repeat (apply Forall_cons; auto)|cbn; lia]].
      apply (derives_cons _ 1 [4; 2; 3; 5] [] [4; 4; 5]); auto. apply derives_cons_same.
      apply (derives_cons _ 2 [3; 5] [] [4; 5]); auto. apply (derives_cons _ 3 [5] [4] [5]); auto. constructor.
    + exists [4]. split; auto. split; [repeat (apply Forall_cons; auto)|cbn; lia].
    + exists []. split; [|split; [constructor|cbn; lia]]. apply (derives_cons _ 1 [1] [] []); auto.
    + exists [4]. split; [|split; [repeat (apply Forall_cons; auto)|cbn; lia]]. apply (derives_cons _ 1 [3] [] [4]); auto.
    + exists [4]. split; [constructor|split; [repeat (apply Forall_cons; auto)|cbn; lia]].
    + exists [5]. split; [constructor|split; [repeat (apply Forall_cons; auto)|cbn; lia]].
Qed.

(** The grammar and the expected distances of the repository's tests (cfg-predict-distance/tests). *)
Example C46_repo_tests :
  (exists m, run_calls true ex_dist [mkCall (fun _ => 0) [(1, 3)] Forward] (md_new ex_dist) = Ok m /\
     md_distances m = [[Some 0]; [Some 1; Some 1; Some 0; Some 0; None; None]; [None; None]; [Some 0; Some 0; Some 0];
                       [Some 1; Some 1; Some 0]; [Some 1; Some 0]; [Some 1; Some 0]]%N) /\
  (exists m, run_calls true (mkCfg (mkSrc 4 []) [mkRule 0 [1; 2; 3] hd0] [] [] None)
               [mkCall (fun _ => 0) [(0, 1)] Forward] (md_new (mkCfg (mkSrc 4 []) [mkRule 0 [1; 2; 3] hd0] [] [] None)) = Ok m /\
     md_distances m = [[Some 1; Some 0; None; None]]%N).
Proof. split; eexists; split; vm_compute; reflexivity. Qed.

(** Two calls, one forward and one symmetric at the start of a rule. *)
Example C46_calls_example : exists m,
  run_calls true ex_dist [mkCall (fun _ => 0) [(1, 3)] Forward; mkCall (fun _ => 0) [(1, 0)] Symmetric] (md_new ex_dist) = Ok m /\
  (forall t, bwd_target [mkCall (fun _ => 0) [(1, 3)] Forward; mkCall (fun _ => 0) [(1, 0)] Symmetric] t -> snd t = 0) /\
  reported m 1 5 3%N /\ reported m 1 0 0%N /\ reported m 6 0 1%N.
Proof.
  eexists. split; [vm_compute; reflexivity|]. split.
  - intros t [c [[<-|[<-|[]]] [HD HT]]]; [exfalso; apply HD; reflexivity|]. destruct HT as [<-|[]]. reflexivity.
  - split; [|split]; eexists; split; reflexivity.
Qed.

(** A ::= B C D, backwards from the dot after B: the distance 0 is written to the dot before B instead of
    the target itself. *)
Definition ex_back : cfg := mkCfg (mkSrc 4 []) [mkRule 0 [1; 2; 3] hd0] [] [] None.
Theorem C46_backward_refuted : exists g m i d c, closed g /\
  run_calls true g [mkCall (fun _ => 0) [(0, 1)] Backward] (md_new g) = Ok m /\
  reported m i d c /\
  ~ (exists w, (leads (rule_list g) (num_syms g) (0, 1) (i, d) w \/ leads (rule_list g) (num_syms g) (i, d) (0, 1) w) /\
               N.of_nat (length w) = c).
Proof.
  exists ex_back. eexists. exists 0, 0, 0%N. split; [split; [closed_tac|split; constructor]|].
  split; [vm_compute; reflexivity|]. split; [eexists; split; reflexivity|].
  change (rule_list ex_back) with [(0, [1; 2; 3])]. change (num_syms ex_back) with 4.
  assert (HD : forall a b u v, derives (dotted [(0, [1; 2; 3])] 4 5 a b) u v -> ~ In 0 u -> v = u).
  { intros a b u v H. induction H as [u|u A v r w [i [q [Hi _]]] _ _]; auto. intros HN. exfalso.
    destruct i as [|[|i]]; try discriminate. injection Hi as <- <-. apply HN. apply in_elt. }
  assert (HV : forall a b C v, derives (dotted [(0, [1; 2; 3])] 4 5 a b) [C] v ->
    v = [C] \/ (v = [1; 2; 3] \/ v = mark 4 (snd a) [1; 2; 3] \/ v = mark 5 (snd b) [1; 2; 3] \/
               (snd a <= snd b /\ v = mark 4 (snd a) (mark 5 (snd b) [1; 2; 3])))).
  { intros a b C v H. apply derives_single_inv in H. destruct H as [->|[r [[i [q [Hi HR]]] H]]]; auto. right.
    destruct i as [|[|i]]; try discriminate. injection Hi as <- <-.
    assert (HN : ~ In 0 r).
    { assert (HM : forall k d u, k <> 0 -> ~ In 0 u -> ~ In 0 (mark k d u)).
      { intros k d0 u Hk Hu X. unfold mark in X. apply in_app_or in X. rewrite <- (firstn_skipn d0 u) in Hu.
        destruct X as [X|[X|X]]; [|congruence|]; apply Hu; apply in_or_app; auto. }
      assert (H0 : ~ In 0 [1; 2; 3]) by (simpl; lia).
      destruct HR as [->|[[_ [_ ->]]|[[_ [_ ->]]|[_ [_ [_ [_ ->]]]]]]]; auto. }
    apply HD in H; auto. subst v. intuition. }
  intros [w [HW HL]]. destruct w; [|discriminate]. cbn [app] in HW.
  destruct HW as [[_ [C [x [y [_ H]]]]]|[_ [C [x [y [_ H]]]]]]; apply HV in H; cbn [fst snd] in H; cbn in H;
    (destruct H as [H|[H|[H|[H|[H1 H]]]]]; try lia;
     repeat (destruct x as [|? x]; try discriminate; injection H as ? H; try discriminate); destruct x; discriminate).
Qed.
Print Assumptions C46_backward_refuted.

(** S ::= a U b, U ::= U: a symbol that derives no terminal string makes the computation panic. *)
Definition ex_unprod : cfg := mkCfg (mkSrc 4 []) [mkRule 0 [1; 2; 3] hd0; mkRule 2 [2] hd0] [] [] None.
Theorem C46_no_panic_refuted : exists g, closed g /\ forall debug,
  run_calls debug g [mkCall (fun _ => 0) [(0, 3)] Forward] (md_new g) = Panic.
Proof.
  exists ex_unprod. split; [split; [closed_tac|split; constructor]|]. intros []; vm_compute; reflexivity.
Qed.
Print Assumptions C46_no_panic_refuted.
