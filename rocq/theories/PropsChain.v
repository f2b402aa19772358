(** Property C105: declarations that are chained. *)

From Coq Require Import List Arith NArith Bool Lia.
From Verif Require Import Base ListFacts Spec SymbolModel HistoryModel CfgModel View CfgProof SpecPrec PrecModel ChainModel
  PropsGrammar.
Import ListNotations.
Local Notation length := List.length.

(** ** The parts of a chain: [.rule(l)] and its calls, [.precedenced_rule(l)] and its calls, and the same with
    [.finalize()] and alternatives after it. *)
Inductive part :=
| Plain (l : nat) (calls : list build_call)
| Operators (l : nat) (calls : list prec_call)
| Finalized (l : nat) (calls : list prec_call) (more : list build_call).

(** As it is written *)
Definition written (p : part) : list chain_call :=
  match p with
  | Plain l calls => KRule l :: map KAlternative calls
  | Operators l calls => KPrecedenced l :: map KOperator calls
  | Finalized l calls more => KPrecedenced l :: map KOperator calls ++ KFinalize :: map KAlternative more
  end.

(** Each part with a builder of its own *)
Definition alone (g : cfg) (p : part) : res cfg :=
  match p with
  | Plain l calls => do b <- fold_res builder_call (BRule l :: calls) (builder_new g); Ok (b_cfg b)
  | Operators l calls => prec_build g l calls
  | Finalized l calls more =>
      do g1 <- prec_build g l calls;
      do b <- fold_res builder_call (BRule l :: more) (builder_new g1); Ok (b_cfg b)
  end.

Definition open_part (p : part) : bool := match p with Operators _ _ => true | _ => false end.

Lemma run_app : forall l l' s, chain_run s (l ++ l') =
  match chain_run s l with
  | Some (Ok s') => chain_run s' l'
  | x => x
  end.
Proof.
  induction l as [|c l IH]; intros l' s; cbn [app chain_run]; [reflexivity|].
  destruct (chain_step s c) as [[s'| |]|]; auto.
Qed.

Lemma run_alternatives : forall calls b, chain_run (AtRule b) (map KAlternative calls) =
  Some (do b' <- fold_res builder_call calls b; Ok (AtRule b')).
Proof.
  induction calls as [|c calls IH]; intros b; cbn [map chain_run fold_res]; [reflexivity|]. cbn [chain_step].
  destruct (builder_call b c) as [b'| |]; cbn [bind]; auto.
Qed.

Lemma run_operators : forall calls b, chain_run (AtPrec b) (map KOperator calls) =
  Some (do b' <- fold_res prec_step calls b; Ok (AtPrec b')).
Proof.
  induction calls as [|c calls IH]; intros b; cbn [map chain_run fold_res]; [reflexivity|]. cbn [chain_step].
  destruct (prec_step b c) as [b'| |]; cbn [bind]; auto.
Qed.

(** What a state stands for once it is closed *)
Definition closed_cfg (s : chain_state) : res cfg :=
  match s with
  | AtRule b => Ok (b_cfg b)
  | AtPrec b => prec_finalize b
  end.

Lemma step_lhs : forall b c b', prec_step b c = Ok b' -> pb_lhs b' = pb_lhs b.
Proof.
  intros b c b' E. destruct c; cbn [prec_step] in E.
  - injection E as <-. reflexivity.
  - unfold prec_rhs_with_history in E. destruct (process_linked _ _) as [h'| |]; try discriminate. cbn [bind] in E.
    destruct (pb_assoc b); try (injection E as <-; reflexivity); destruct (add_rule _ _); try discriminate; injection E as <-; reflexivity.
  - unfold prec_rhs_with_history in E. destruct (process_linked _ _) as [h'| |]; try discriminate. cbn [bind] in E.
    destruct (pb_assoc b); try (injection E as <-; reflexivity); destruct (add_rule _ _); try discriminate; injection E as <-; reflexivity.
  - injection E as <-. reflexivity.
  - destruct (next_sym _ _) as [cur g1]. destruct (add_rule _ _); try discriminate. injection E as <-. reflexivity.
Qed.
Lemma steps_lhs : forall l b b', fold_res prec_step l b = Ok b' -> pb_lhs b' = pb_lhs b.
Proof.
  induction l as [|c l IH]; intros b b' E; cbn [fold_res] in E; [injection E as <-; reflexivity|].
  destruct (prec_step b c) as [b1| |] eqn:E1; try discriminate. cbn [bind] in E. rewrite (IH _ _ E). eapply step_lhs; eauto.
Qed.
Lemma new_lhs : forall g l, pb_lhs (prec_new g l) = l.
Proof. intros. unfold prec_new. destruct (next_sym g None). reflexivity. Qed.

(** The first call of a part closes what is open. *)
Lemma part_run : forall p s, exists r, chain_run s (written p) = Some r /\
  (do s' <- r; closed_cfg s') = (do g <- closed_cfg s; alone g p) /\
  (open_part p = false -> forall s', r = Ok s' -> exists b, s' = AtRule b).
Proof.
  intros p s.
  assert (START : forall l calls, chain_run s (KRule l :: map KAlternative calls) =
    Some (do g <- closed_cfg s; do b <- fold_res builder_call calls (mkBuilder (Some l) None g); Ok (AtRule b))).
  { intros l calls. cbn [chain_run]. destruct s as [b|b]; cbn [chain_step closed_cfg builder_call bind].
    - rewrite run_alternatives. reflexivity.
    - unfold prec_finish. destruct (prec_finalize b) as [g| |]; cbn [bind b_cfg]; auto. rewrite run_alternatives. reflexivity. }
  assert (PREC : forall l calls, chain_run s (KPrecedenced l :: map KOperator calls) =
    Some (do g <- closed_cfg s; do b <- fold_res prec_step calls (prec_new g l); Ok (AtPrec b))).
  { intros l calls. cbn [chain_run]. destruct s as [b|b]; cbn [chain_step closed_cfg bind].
    - rewrite run_operators. reflexivity.
    - unfold prec_finish. destruct (prec_finalize b) as [g| |]; cbn [bind b_cfg]; auto. rewrite run_operators. reflexivity. }
  destruct p as [l calls|l calls|l calls more]; cbn [written alone open_part].
  - eexists. split; [apply START|]. destruct (closed_cfg s) as [g| |]; cbn [bind]; try (split; [reflexivity|intros _ s' E; discriminate]).
    cbn [fold_res builder_call bind builder_new b_cfg]. destruct (fold_res _ _ _) as [b| |]; cbn [bind]; (split; [reflexivity|]); intros _ s' E; [injection E as <-; eauto|discriminate|discriminate].
  - eexists. split; [apply PREC|]. split; [|discriminate]. destruct (closed_cfg s) as [g| |]; cbn [bind]; auto. unfold prec_build.
    destruct (fold_res _ _ _) as [b| |]; cbn [bind]; reflexivity.
  - rewrite app_comm_cons, run_app, PREC. destruct (closed_cfg s) as [g| |]; cbn [bind]; try (eexists; split; [reflexivity|split; [reflexivity|intros _ s' E; discriminate]]).
    unfold prec_build. destruct (fold_res prec_step calls (prec_new g l)) as [b| |] eqn:EB; cbn [bind]; try (eexists; split; [reflexivity|split; [reflexivity|intros _ s' E; discriminate]]).
    cbn [chain_run chain_step]. unfold prec_finish.
    destruct (prec_finalize b) as [g1| |]; cbn [bind]; try (eexists; split; [reflexivity|split; [reflexivity|intros _ s' E; discriminate]]).
    eexists. split; [apply run_alternatives|]. rewrite (steps_lhs _ _ _ EB), new_lhs. cbn [fold_res builder_call bind builder_new b_cfg].
    destruct (fold_res builder_call _ _) as [b2| |]; cbn [bind]; (split; [reflexivity|]); intros _ s' E; [injection E as <-; eauto|discriminate|discriminate].
Qed.

Lemma parts_run : forall ps s, exists r, chain_run s (flat_map written ps) = Some r /\
  (do s' <- r; closed_cfg s') = (do g <- closed_cfg s; fold_res alone ps g).
Proof.
  induction ps as [|p ps IH]; intros s; cbn [flat_map fold_res].
  - eexists. split; [reflexivity|]. cbn [bind]. destruct (closed_cfg s); reflexivity.
  - rewrite run_app. destruct (part_run p s) as [r [E [H _]]]. rewrite E. destruct r as [s'| |]; cbn [bind] in H.
    + destruct (IH s') as [r' [E' H']]. exists r'. split; [exact E'|]. rewrite H'. destruct (closed_cfg s) as [g| |]; cbn [bind] in *; rewrite H; reflexivity.
    + exists Panic. split; [reflexivity|]. cbn [bind]. destruct (closed_cfg s) as [g| |]; cbn [bind] in *; try congruence. rewrite <- H. reflexivity.
    + exists OutOfFuel. split; [reflexivity|]. cbn [bind]. destruct (closed_cfg s) as [g| |]; cbn [bind] in *; try congruence. rewrite <- H. reflexivity.
Qed.

(** ** C105: a chain whose last part is closed gives the same grammar as its parts one after another, each with a builder
    of its own. *)
Theorem C105_chained_partial : forall g ps p, open_part p = false ->
  chained g (flat_map written (ps ++ [p])) = Some (fold_res alone (ps ++ [p]) g).
Proof.
  intros g ps p HP. unfold chained. rewrite flat_map_app. cbn [flat_map]. rewrite app_nil_r, run_app.
  destruct (parts_run ps (AtRule (builder_new g))) as [r [E H]]. rewrite E. cbn [closed_cfg builder_new b_cfg bind] in H.
  assert (FA : forall l x, fold_res alone (l ++ [p]) x = (do y <- fold_res alone l x; alone y p)).
  { induction l as [|q l IH]; intros x; cbn [app fold_res bind]; [destruct (alone x p); reflexivity|]. destruct (alone x q); cbn [bind]; auto. }
  rewrite FA. destruct r as [s'| |]; cbn [bind] in H.
  - destruct (part_run p s') as [r' [E' [H' HB]]]. rewrite E'. f_equal. rewrite H in H'. rewrite <- H'.
    destruct r' as [s2| |]; cbn [bind]; auto. destruct (HB HP s2 eq_refl) as [b ->]. reflexivity.
  - rewrite <- H. reflexivity.
  - rewrite <- H. reflexivity.
Qed.
Print Assumptions C105_chained_partial.

(** A chain that ends without [finalize] or another part is not finished: the symbol has no alternative besides the
    earlier ones. *)
Lemma add_lhs : forall g r g', good_limit (limit g) -> add_rule g r = Ok g' ->
  limit g' = limit g /\ num_syms g <= num_syms g' /\ forall A q, A < num_syms g -> A <> lhs r -> (prods g' A q <-> prods g A q).
Proof.
  intros g r g' HL E. destruct (add_rule_spec g r HL) as [k [c [E' [_ Hc]]]]. rewrite E' in E. injection E as <-.
  assert (N : num_syms (added g k c) = num_syms g + k) by reflexivity. rewrite N. split; [reflexivity|]. split; [lia|].
  intros A q HA NA. unfold prods, added. cbn [rules]. split.
  - intros [x [Hx [X1 X2]]]. apply in_app_or in Hx. destruct Hx as [Hx|Hx]; [eauto|]. exfalso.
    assert (L : lhs x = lhs r \/ num_syms g <= lhs x).
    { destruct Hc as [[-> _]|[l [_ [_ Hc]]]]; [destruct Hx as [<-|[]]; auto|].
      assert (G : forall p s w c0, chain r l p s w c0 -> In x c0 -> lhs x = lhs r \/ s <= lhs x).
      { intros p s w c0 H. induction H; intros Hi.
        - destruct Hi as [<-|[]]. auto.
        - destruct Hi as [<-|Hi]; [cbn; auto|]. destruct (IHchain Hi); [auto|right; lia]. }
      eapply G; eauto. }
    subst A. destruct L; [congruence|lia].
  - intros [x [Hx [X1 X2]]]. exists x. split; auto. apply in_or_app. auto.
Qed.

Definition grown (g0 g : cfg) : Prop :=
  good_limit (limit g) /\ num_syms g0 <= num_syms g /\ forall A q, A < num_syms g0 -> (prods g A q <-> prods g0 A q).

Lemma grown_add : forall g0 g r g', grown g0 g -> num_syms g0 <= lhs r -> add_rule g r = Ok g' -> grown g0 g'.
Proof.
  intros g0 g r g' [G1 [G2 G3]] HR E. destruct (add_lhs g r g' G1 E) as [H1 [H2 H3]]. split; [rewrite H1; exact G1|]. split; [lia|].
  intros A q HA. rewrite H3; [apply G3; exact HA|lia|lia].
Qed.

Lemma grown_step : forall g0 b c b', grown g0 (pb_cfg b) -> num_syms g0 <= pb_current b -> prec_step b c = Ok b' ->
  grown g0 (pb_cfg b') /\ num_syms g0 <= pb_current b'.
Proof.
  intros g0 b c b' HG HC E.
  assert (RHS : forall syms h, prec_rhs_with_history b syms h = Ok b' -> grown g0 (pb_cfg b') /\ num_syms g0 <= pb_current b').
  { intros syms h E1. unfold prec_rhs_with_history in E1. destruct (process_linked _ _) as [h'| |]; try discriminate. cbn [bind] in E1.
    destruct (pb_assoc b).
    - destruct (add_rule _ _) as [g2| |] eqn:EA; try discriminate. injection E1 as <-. cbn. split; auto. eapply grown_add; [exact HG| |exact EA]. exact HC.
    - destruct (add_rule _ _) as [g2| |] eqn:EA; try discriminate. injection E1 as <-. cbn. split; auto. eapply grown_add; [exact HG| |exact EA]. exact HC.
    - injection E1 as <-. cbn. auto. }
  destruct c; cbn [prec_step] in E; try (injection E as <-; cbn; auto); try (eapply RHS; exact E).
  unfold next_sym, src_next in E. destruct (add_rule _ _) as [g2| |] eqn:EA; try discriminate. cbn [bind] in E. injection E as <-. cbn [pb_cfg pb_current].
  destruct HG as [G1 [G2 G3]]. split; [|exact G2]. eapply grown_add; [| |exact EA]; [|exact G2]. split; [exact G1|]. split; [unfold num_syms in *; cbn; lia|exact G3].
Qed.

Theorem C105_unfinished : forall g ps l calls g' g0, good_limit (limit g0) -> fold_res alone ps g = Ok g0 -> l < num_syms g0 ->
  chained g (flat_map written (ps ++ [Operators l calls])) = Some (Ok g') -> forall r, prods g' l r <-> prods g0 l r.
Proof.
  intros g ps l calls g' g0 HL E0 Hl E r. unfold chained in E. rewrite flat_map_app in E. cbn [flat_map] in E. rewrite app_nil_r, run_app in E.
  destruct (parts_run ps (AtRule (builder_new g))) as [r0 [E1 H]]. rewrite E1 in E. cbn [closed_cfg builder_new b_cfg bind] in H. rewrite E0 in H.
  destruct r0 as [s| |]; try discriminate. cbn [bind] in H.
  assert (PR : exists b, fold_res prec_step calls (prec_new g0 l) = Ok b /\ g' = pb_cfg b).
  { cbn [written chain_run] in E. destruct s as [b|b]; cbn [chain_step closed_cfg] in *.
    - injection H as H. rewrite H, run_operators in E. destruct (fold_res prec_step calls (prec_new g0 l)) as [b2| |]; try discriminate. cbn [bind chain_cfg] in E. injection E as E. exists b2. auto.
    - unfold prec_finish in E. rewrite H in E. cbn [bind b_cfg] in E. rewrite run_operators in E. destruct (fold_res prec_step calls (prec_new g0 l)) as [b2| |]; try discriminate.
      cbn [bind chain_cfg] in E. injection E as E. exists b2. auto. }
  destruct PR as [b [EB ->]].
  assert (ALL : forall calls b0, grown g0 (pb_cfg b0) -> num_syms g0 <= pb_current b0 -> fold_res prec_step calls b0 = Ok b -> grown g0 (pb_cfg b)).
  { induction calls0 as [|c cs IH]; intros b0 HG HC EF; cbn [fold_res] in EF; [injection EF as <-; exact HG|].
    destruct (prec_step b0 c) as [b1| |] eqn:ES; try discriminate. cbn [bind] in EF. destruct (grown_step _ _ _ _ HG HC ES). eapply IH; eauto. }
  assert (G0 : grown g0 (pb_cfg (prec_new g0 l))).
  { unfold prec_new, next_sym, src_next. cbn [pb_cfg]. split; [exact HL|]. split; [unfold num_syms; cbn; lia|]. intros; reflexivity. }
  assert (C0 : num_syms g0 <= pb_current (prec_new g0 l)) by (unfold prec_new, next_sym, src_next; cbn; unfold num_syms; lia).
  destruct (ALL calls _ G0 C0 EB) as [_ [_ G]]. apply G. exact Hl.
Qed.
Print Assumptions C105_unfinished.

(** start ::= e ; e ::= n | ( e ) group | e + e : start e n ( ) + = 0..5 *)
Definition ex_parts : list part :=
  [Plain 0 [BRhs [1]]; Operators 1 [PRhs [2]; PAssoc AGroup; PRhs [3; 1; 4]; PLower; PRhs [1; 5; 1]]].
Definition ex_empty : cfg := mkCfg (mkSrc 6 (repeat None 6)) [] [] [] None.

(** The claim is false of a chain that is not finalized: the alternative in parentheses and the rule of [e] are lost. *)
Theorem C105_dropped_refuted : exists g1 g2,
  chained ex_empty (flat_map written ex_parts) = Some (Ok g1) /\ fold_res alone ex_parts ex_empty = Ok g2 /\
  language (prods g2) 0 [3; 2; 4] /\ forall r, ~ prods g1 1 r.
Proof.
  eexists. eexists. split; [vm_compute; reflexivity|]. split; [vm_compute; reflexivity|]. split.
  - match goal with |- language (prods ?g) _ _ => assert (D : forall A q, In (A, q) (map (fun x => (lhs x, rhs x)) (rules g)) -> prods g A q) end.
    { intros A q H. apply in_map_iff in H. destruct H as [x [E Hx]]. injection E as <- <-. exists x. auto. }
    split.
    + apply (derives_step _ [] 0 [] [1]); [apply D; simpl; auto 8|]. cbn [app].
      apply (derives_step _ [] 1 [] [7]); [apply D; simpl; auto 8|]. cbn [app].
      apply (derives_step _ [] 7 [] [6]); [apply D; simpl; auto 8|]. cbn [app].
      apply (derives_step _ [] 6 [] [3; 7; 4]); [apply D; simpl; auto 8|]. cbn [app].
      apply (derives_step _ [3] 7 [4] [6]); [apply D; simpl; auto 8|]. cbn [app].
      apply (derives_step _ [3] 6 [4] [2]); [apply D; simpl; auto 8|]. constructor.
    + repeat (apply Forall_cons; [intros q [x [Hx [X1 _]]]; simpl in Hx; repeat (destruct Hx as [<-|Hx]; [discriminate X1|]); destruct Hx|]). constructor.
  - intros r [x [Hx [X1 _]]]. simpl in Hx. repeat (destruct Hx as [<-|Hx]; [discriminate X1|]). destruct Hx.
Qed.
Print Assumptions C105_dropped_refuted.

(** The same with a part after it, and with [finalize]. *)
Example C105_example : exists g', chained ex_empty (flat_map written (ex_parts ++ [Plain 2 [BRhs [3]; BRhs []]])) = Some (Ok g') /\
  map (fun x => (lhs x, rhs x)) (rules g') =
  [(0, [1]); (6, [2]); (7, [6]); (7, [7; 5; 6]); (6, [3; 7; 4]); (1, [7]); (2, [3]); (2, [])].
Proof. eexists. split; vm_compute; reflexivity. Qed.
Example C105_finalized_example : exists g', chained ex_empty (written (Finalized 1 [PRhs [2]] [BRhs [3; 1]])) = Some (Ok g') /\
  map (fun x => (lhs x, rhs x)) (rules g') = [(6, [2]); (1, [6]); (1, [3; 1])].
Proof. eexists. split; vm_compute; reflexivity. Qed.
Example C105_unfinished_example : good_limit (limit ex_empty) /\ exists g', chained ex_empty (flat_map written ([Plain 1 [BRhs [2]]] ++ [Operators 1 [PRhs [3]]])) = Some (Ok g') /\
  map (fun x => (lhs x, rhs x)) (rules g') = [(1, [2]); (6, [3])].
Proof. split; [exact I|]. eexists. split; vm_compute; reflexivity. Qed.
