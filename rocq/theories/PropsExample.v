(** Property C115: what the grammars of cfg-examples describe. *)

From Coq Require Import List Arith NArith Bool Lia String.
From Verif Require Import Base ListFacts Spec SpecClassify SpecTree SpecExample TreeProof TreeLang GrammarFacts LoopModel SymbolModel HistoryModel CfgModel View
  BitSetModel ClosureModel MatrixModel MatrixProof ClassifyModel ElimModel ElimProof PropsGrammar PropsElim PropsClassify UsefulProof PropsLL PropsFinite PropsInfinite
  LoadModel ExampleModel ExampleProof.
Import ListNotations.
Local Notation length := List.length.

(** ** C115, [ambiguous_math].  The grammar is built without panic, and its sentences are the chains of numbers and operators. *)
Theorem C115_math_language : exists g, ambiguous_math = Ok g /\ roots g = [0] /\
  forall w, language (prods g) 0 w <-> exists n, expression n w.
Proof.
  eexists. split; [vm_compute; reflexivity|]. split; [reflexivity|]. intros w. rewrite <- math_language.
  match goal with |- language (prods ?g) 0 w <-> _ => rewrite <- (plain_language g) end. reflexivity.
Qed.
Print Assumptions C115_math_language.

(** A sentence with [n] operators has as many parse trees as there are ways to put the parentheses: the Catalan numbers. *)
Theorem C115_math_trees : exists g c, ambiguous_math = Ok g /\ catalan c /\
  forall n w, expression n w -> exists L, NoDup L /\ length L = c n /\ forall t, In t L <-> parses (plain g) 0 t /\ yield t = w.
Proof.
  eexists. exists (fun n => cat (S n) n). split; [vm_compute; reflexivity|]. split; [apply cat_catalan|]. exact math_trees.
Qed.
Print Assumptions C115_math_trees.

(** So it is ambiguous exactly where there are two operators or more. *)
Theorem C115_math_ambiguity : exists g, ambiguous_math = Ok g /\
  forall n w, expression n w -> ((forall t t', parses (plain g) 0 t -> parses (plain g) 0 t' -> yield t = w -> yield t' = w -> t = t') <-> n <= 1).
Proof.
  eexists. split; [vm_compute; reflexivity|]. intros n w H. destruct (math_trees n w H) as [L [N [HL HT]]]. split.
  - intros U. destruct (le_lt_dec n 1) as [|X]; auto. exfalso. pose proof (cat_many n X) as M. rewrite <- HL in M.
    destruct L as [|a [|b L]]; simpl in M; try lia. inversion N as [|? ? NI _]; subst. apply NI. left.
    destruct (proj1 (HT a) (or_introl eq_refl)) as [P1 Y1]. destruct (proj1 (HT b) (or_intror (or_introl eq_refl))) as [P2 Y2]. apply U; auto.
  - intros HN t t' P P' Y Y'. assert (T : In t L) by (apply HT; split; auto). assert (T' : In t' L) by (apply HT; split; auto).
    assert (L1 : length L = 1) by (rewrite HL; destruct n as [|[|n]]; try lia; reflexivity).
    destruct L as [|a [|b L]]; try discriminate. destruct T as [<-|[]]. destruct T' as [<-|[]]. reflexivity.
Qed.
Print Assumptions C115_math_ambiguity.

(** ** C115, the grammar of C.  It loads, and each of its rules is used in the derivation of some sentence. *)
Definition c_cfg : cfg := Eval vm_compute in match c_grammar with Ok g => g | _ => cfg_new end.
Lemma c_loaded : c_grammar = Ok c_cfg.
Proof. vm_compute. reflexivity. Qed.

Definition closedb (g : cfg) : bool := forallb (fun x => Nat.ltb (lhs x) (num_syms g) && forallb (fun s => Nat.ltb s (num_syms g)) (rhs x)) (rules g).
Lemma closedb_spec : forall g, closedb g = true -> closed_rules g.
Proof.
  intros g H x Hx. unfold closedb in H. rewrite forallb_forall in H. specialize (H x Hx). apply andb_prop in H. destruct H as [H1 H2].
  apply Nat.ltb_lt in H1. split; auto. apply Forall_forall. intros s Hs. rewrite forallb_forall in H2. apply Nat.ltb_lt. auto.
Qed.
Lemma c_closed : closed_rules c_cfg.
Proof. apply closedb_spec. vm_compute. reflexivity. Qed.

Theorem C115_c_useful : exists g, c_grammar = Ok g /\ roots g = [0] /\ length (rules g) = 239 /\
  forall x, In x (rules g) -> contributes (prods g) (roots g) (lhs x) (rhs x).
Proof.
  exists c_cfg. split; [exact c_loaded|]. split; [reflexivity|]. split; [reflexivity|].
  destruct (C31_rule c_cfg (roots c_cfg) c_closed) as [u [E [_ [U _]]]]; [constructor; [|constructor]; apply Nat.ltb_lt; vm_compute; reflexivity|].
  assert (T : us_all_useful u = true).
  { assert (X : (do u <- usefulness_with_roots c_cfg (roots c_cfg); Ok (us_all_useful u)) = Ok true) by (vm_compute; reflexivity). rewrite E in X. injection X as X. exact X. }
  intros x Hx. pose proof (proj1 U T) as US. apply useful_contributes; [|exists x; auto|apply US; exact Hx].
  intros A r [y [Hy [<- <-]]]. destruct (US y Hy) as [_ [w [D F]]]. clear - D F. remember (rhs y) as r eqn:Er. clear Er. revert w D F. induction r as [|a r IH]; intros w D F; constructor.
  - change (a :: r) with ([a] ++ r) in D. apply derives_app_inv in D. destruct D as [w1 [w2 [-> [D1 D2]]]]. apply Forall_app in F. exists w1. split; [exact D1|apply F].
  - change (a :: r) with ([a] ++ r) in D. apply derives_app_inv in D. destruct D as [w1 [w2 [-> [D1 D2]]]]. apply Forall_app in F. eapply IH; [exact D2|apply F].
Qed.
Print Assumptions C115_c_useful.

(** Every string has finitely many parse trees, from every symbol. *)
Definition finite_check (g : cfg) : bool :=
  match eliminate_nulling g with
  | Ok (g', result) =>
      match unit_derivation_matrix g', reachability_matrix result with
      | Ok u, Ok m => forallb (fun a => match mx_get u a a, mx_get m a a with Ok false, Ok false => true | _, _ => false end) (seq 0 (num_syms g)) &&
                      forallb (fun x => match rhs x with [s] => negb (Nat.eqb s (lhs x)) | _ => true end) (rules g')
      | _, _ => false
      end
  | _ => false
  end.
Lemma finite_checked : forall g, closed_rules g -> finite_check g = true -> forall A w, finitely_parsed (plain g) A w.
Proof.
  intros g HC X. unfold finite_check in X. destruct (eliminate_nulling g) as [[g' result]| |] eqn:E; try discriminate.
  destruct (C114_exact g g' result HC E) as [u [m [E1 [E2 H]]]]. rewrite E1, E2 in X. apply andb_prop in X. destruct X as [X1 X2].
  apply H. intros a Ha _. rewrite forallb_forall in X1, X2. specialize (X1 a ltac:(apply in_seq; lia)).
  destruct (mx_get u a a) as [[]| |]; try discriminate. destruct (mx_get m a a) as [[]| |]; try discriminate. split; auto. split; auto.
  intros x Hx EL ER. specialize (X2 x Hx). rewrite ER, EL, Nat.eqb_refl in X2. discriminate.
Qed.

Theorem C115_c_finite : exists g, c_grammar = Ok g /\ forall A w, finitely_parsed (plain g) A w.
Proof. exists c_cfg. split; [exact c_loaded|]. apply finite_checked; [exact c_closed|]. vm_compute. reflexivity. Qed.
Print Assumptions C115_c_finite.

(** It is ambiguous: an [else] after two [if]s. *)
Fixpoint treeb (l : list (nat * list nat)) (A : nat) (t : tree) : bool :=
  match t with
  | Leaf s => Nat.eqb A s && negb (existsb (fun p => Nat.eqb (fst p) s) l)
  | Node i ts =>
      match nth_error l i with
      | None => false
      | Some (B, r) => Nat.eqb A B &&
          (fix go (ts : list tree) (r : list nat) {struct ts} : bool :=
             match ts, r with [], [] => true | t :: ts', x :: r' => treeb l x t && go ts' r' | _, _ => false end) ts r
      end
  end.
Lemma treeb_spec : forall l t A, treeb l A t = true -> parses l A t.
Proof.
  intros l t. induction t as [s|i ts IH] using tree_ind2; intros A H; simpl in H.
  - apply andb_prop in H. destruct H as [H1 H2]. apply Nat.eqb_eq in H1. subst A. constructor. intros r HI. apply negb_true_iff in H2.
    assert (X : existsb (fun p => Nat.eqb (fst p) s) l = true) by (apply existsb_exists; exists (s, r); split; [exact HI|apply Nat.eqb_refl]). congruence.
  - destruct (nth_error l i) as [[B r]|] eqn:E; [|discriminate]. apply andb_prop in H. destruct H as [H1 H2]. apply Nat.eqb_eq in H1. subst B.
    econstructor; [exact E|]. clear E. revert r H2. induction IH as [|t ts IHt _ IHts]; intros r H; destruct r as [|x r]; try discriminate; constructor.
    + apply IHt. apply andb_prop in H. apply H.
    + apply IHts. apply andb_prop in H. apply H.
Qed.

Definition else_inner : tree :=
    Node 0 [Node 229 [Node 231 [Node 233 [Node 83 [Node 93 [Leaf 88]; Node 87 []]; Node 143 [Node 144 []; Node 146 [Leaf 3]]; Node 234
    []; Node 208 [Leaf 18; Node 210 [Node 211 [Node 214 [Node 201 [Node 218 [Leaf 161; Leaf 6; Node 77 [Leaf 73]; Leaf 8; Node 201
    [Node 219 [Leaf 161; Leaf 6; Node 77 [Leaf 73]; Leaf 8; Node 200 [Node 215 [Node 216 []; Leaf 78]]; Leaf 162; Node 200 [Node 215
    [Node 216 []; Leaf 78]]]]]]]]]; Leaf 20]]]]].
Definition else_outer : tree :=
    Node 0 [Node 229 [Node 231 [Node 233 [Node 83 [Node 93 [Leaf 88]; Node 87 []]; Node 143 [Node 144 []; Node 146 [Leaf 3]]; Node 234
    []; Node 208 [Leaf 18; Node 210 [Node 211 [Node 214 [Node 201 [Node 219 [Leaf 161; Leaf 6; Node 77 [Leaf 73]; Leaf 8; Node 201
    [Node 218 [Leaf 161; Leaf 6; Node 77 [Leaf 73]; Leaf 8; Node 200 [Node 215 [Node 216 []; Leaf 78]]]]; Leaf 162; Node 200 [Node 215
    [Node 216 []; Leaf 78]]]]]]]; Leaf 20]]]]].

Theorem C115_c_ambiguous : exists g, c_grammar = Ok g /\ exists t t', t <> t' /\ parses (plain g) 0 t /\ parses (plain g) 0 t' /\ yield t = yield t'.
Proof.
  exists c_cfg. split; [exact c_loaded|]. exists else_inner, else_outer. split; [discriminate|].
  split; [apply treeb_spec; vm_compute; reflexivity|]. split; [apply treeb_spec; vm_compute; reflexivity|]. vm_compute. reflexivity.
Qed.
Print Assumptions C115_c_ambiguous.

(** The sentence is [typedef identifier {  if ( error ) if ( error ) ; else ; }], where [error] is a token of the grammar. *)
Example C115_example : expression 2 [7; 8; 3; 9; 6; 10; 10] /\
  yield else_inner = [88; 3; 18; 161; 6; 73; 8; 161; 6; 73; 8; 78; 162; 78; 20] /\
  (do g <- c_grammar; Ok (map (fun s => nth s (names (src g)) None) (yield else_inner))) =
  Ok (map Some ["typedef"; "identifier"; "lbrace"; "if_"; "lparen"; "error"; "rparen"; "if_"; "lparen"; "error"; "rparen"; "semicolon"; "else_"; "semicolon"; "rbrace"]%string).
Proof.
  split; [|split; vm_compute; reflexivity].
  apply (expression_operator 1 [7; 8]); [split; [discriminate|repeat constructor; unfold digit; lia]|unfold operator; lia|].
  apply (expression_operator 0 [9]); [split; [discriminate|repeat constructor; unfold digit; lia]|unfold operator; lia|].
  constructor. split; [discriminate|repeat constructor; unfold digit; lia].
Qed.
