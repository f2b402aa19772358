(** Properties C05 - C08: symbol sets and closures. *)

From Coq Require Import List Arith NArith Bool Lia Sorted.
From Verif Require Import Base ListFacts Spec SetView SymbolModel HistoryModel LoopModel CfgModel View
  BitSetModel ClosureModel SetProof ValueProof PropsGrammar.
Import ListNotations.
Local Notation length := List.length.

(** ** C05.  [g] is any grammar whose rules use only symbols of its source. *)

Theorem C05_used : forall g, closed_rules g ->
  exists b, bs_used g = Ok b /\ length b = num_syms g /\
  forall s, member b s <-> occurs (prods g) s.
Proof. exact bs_used_spec. Qed.
Print Assumptions C05_used.

Theorem C05_unused : forall g, closed_rules g ->
  exists b, unused_symbols g = Ok b /\ length b = num_syms g /\
  forall s, member b s <-> s < num_syms g /\ ~ occurs (prods g) s.
Proof. exact bs_unused_spec. Qed.
Print Assumptions C05_unused.

Theorem C05_terminal : forall g, closed_rules g ->
  exists b, terminal_symbols g = Ok b /\ length b = num_syms g /\
  forall s, member b s <-> s < num_syms g /\ terminal (prods g) s.
Proof. exact bs_terminal_spec. Qed.
Print Assumptions C05_terminal.

Theorem C05_nulling : forall g, closed_rules g ->
  exists b, nulling_symbols g = Ok b /\ bs_nulling g bs_new = Ok b /\ length b = num_syms g /\
  forall s, member b s <-> prods g s [].
Proof.
  intros g HC. destruct (nulling_symbols_spec g HC) as [b [E [L M]]]. exists b.
  split; [exact E|]. split; [|split; [exact L|exact M]].
  unfold nulling_symbols, bs_nulling, bs_new in *. simpl in *.
  destruct (length (bs_reset g) =? 0); exact E.
Qed.
Print Assumptions C05_nulling.

(** On a set that is not new, the members are added to the ones that are there. *)
Theorem C05_nulling_adds : forall g b0, closed_rules g -> length b0 = num_syms g ->
  exists b, bs_nulling g b0 = Ok b /\ length b = num_syms g /\
  forall s, member b s <-> member b0 s \/ prods g s [].
Proof. exact bs_nulling_from_spec. Qed.
Print Assumptions C05_nulling_adds.

Theorem C05_productive : forall g, closed_rules g ->
  exists b, bs_productive g bs_new = Ok b /\ length b = num_syms g /\
  forall s, member b s <-> nonterminal (prods g) s.
Proof. exact bs_productive_new_spec. Qed.
Print Assumptions C05_productive.

Theorem C05_productive_adds : forall g b0, closed_rules g -> length b0 = num_syms g ->
  exists b, bs_productive g b0 = Ok b /\ length b = num_syms g /\
  forall s, member b s <-> member b0 s \/ nonterminal (prods g) s.
Proof. exact bs_productive_spec. Qed.
Print Assumptions C05_productive_adds.

Theorem C05_subtract_productive : forall g b0, closed_rules g -> length b0 = num_syms g ->
  exists b, bs_subtract_productive g b0 = Ok b /\ length b = num_syms g /\
  forall s, member b s <-> member b0 s /\ ~ nonterminal (prods g) s.
Proof. exact bs_subtract_spec. Qed.
Print Assumptions C05_subtract_productive.

Theorem C05_iter : forall b,
  (forall s, In s (bs_iter b) <-> member b s) /\ StronglySorted lt (bs_iter b).
Proof. intros b. split; [exact (bs_iter_In b)|exact (bs_iter_sorted b)]. Qed.
Print Assumptions C05_iter.

Theorem C05_negate : forall b s, member (bs_negate b) s <-> s < length b /\ ~ member b s.
Proof. exact bs_negate_member. Qed.
Print Assumptions C05_negate.

Theorem C05_union : forall a b,
  (length a = length b -> exists c, bs_union a b = Ok c /\ length c = length a /\
     forall s, member c s <-> member a s \/ member b s) /\
  (length a <> length b -> bs_union a b = Panic).
Proof. intros a b. split; [exact (bs_union_spec a b)|exact (bs_union_panics a b)]. Qed.
Print Assumptions C05_union.

Theorem C05_all : forall b, bs_all b = true <-> forall s, s < length b -> member b s.
Proof. exact bs_all_spec. Qed.
Print Assumptions C05_all.

Theorem C05_reserve : forall b n s,
  (member (bs_reserve b n) s <-> member b s) /\ length (bs_reserve b n) = Nat.max n (length b).
Proof. exact bs_reserve_spec. Qed.
Print Assumptions C05_reserve.

(** S ::= A b c d e | S x A ;  A ::= f |  ; *)
Example C05_example :
  bs_used ex_g = Ok (repeat true 8) /\
  terminal_symbols ex_g = Ok [false; false; true; true; true; true; true; true] /\
  nulling_symbols ex_g = Ok [false; true; false; false; false; false; false; false] /\
  bs_productive ex_g bs_new = Ok [true; true; false; false; false; false; false; false] /\
  bs_iter [false; true; true; false; true] = [1; 2; 4].
Proof. vm_compute. auto. Qed.

(** ** C06 *)

Theorem C06_for_all : forall g b, closed_rules g -> num_syms g <= length b ->
  exists p, rhs_closure_for_all g b = Ok p /\ length p = length b /\
  forall s, member p s <-> closure_all (prods g) (member b) s.
Proof. exact rhs_closure_all_spec. Qed.
Print Assumptions C06_for_all.

Theorem C06_for_any : forall g b, closed_rules g -> num_syms g <= length b ->
  exists p, rhs_closure_for_any g b = Ok p /\ length p = length b /\
  forall s, member p s <-> closure_any (prods g) (member b) s.
Proof. exact rhs_closure_any_spec. Qed.
Print Assumptions C06_for_any.

(** The same without the inductive definitions: the result is closed and every closed superset
    contains it. *)
Theorem C06_least : forall g b p, closed_rules g -> num_syms g <= length b ->
  rhs_closure_for_all g b = Ok p ->
  (forall s, member b s -> member p s) /\
  (forall x, In x (rules g) -> rhs x <> [] -> (forall s, In s (rhs x) -> member p s) -> member p (lhs x)) /\
  (forall Q : nat -> Prop, (forall s, member b s -> Q s) ->
     (forall x, In x (rules g) -> rhs x <> [] -> (forall s, In s (rhs x) -> Q s) -> Q (lhs x)) ->
     forall s, member p s -> Q s).
Proof.
  intros g b p HC HL E. destruct (rhs_closure_all_spec g b HC HL) as [p' [E' [_ M]]].
  rewrite E in E'. inversion E'; subst p'. split; [|split].
  - intros s Hs. apply M. constructor; auto.
  - intros x Hx Hne HA. apply M. apply ca_rule with (r := rhs x); auto.
    + exists x; auto.
    + apply Forall_forall. intros s Hs. apply M. auto.
  - intros Q H0 HQ. assert (HX : forall s, closure_all (prods g) (member b) s -> Q s).
    { fix IH 2. intros s H. destruct H as [s H|A r [x [Hx [<- <-]]] Hne HF]; [apply H0; exact H|].
      apply HQ; auto. clear Hx Hne. induction HF as [|a l Ha _ IHl].
      - intros s [].
      - intros s [<-|Hs]; [apply IH; exact Ha|apply IHl; exact Hs]. }
    intros s Hs. apply HX, M. exact Hs.
Qed.
Print Assumptions C06_least.

(** Closures in a cyclic grammar:  S ::= S S | A ;  A ::= B ;  B ::= A | t ;  C ::= S C ; *)
Definition ex_cyc : cfg :=
  mkCfg (mkSrc 5 (repeat None 5))
        [mkRule 0 [0; 0] hd0; mkRule 0 [1] hd0; mkRule 1 [2] hd0; mkRule 2 [1] hd0;
         mkRule 2 [3] hd0; mkRule 4 [0; 4] hd0] [0] [] None.

Example C06_example : closed_rules ex_cyc /\
  rhs_closure_for_all ex_cyc [false; false; false; true; false] = Ok [true; true; true; true; false] /\
  rhs_closure_for_any ex_cyc [false; false; false; true; false] = Ok [true; true; true; true; true].
Proof.
  split; [|vm_compute; auto]. intros x Hx. simpl in Hx. unfold num_syms; simpl.
  repeat (destruct Hx as [<- | Hx]; [simpl; repeat constructor; lia|]). destruct Hx.
Qed.

(** ** C07 *)

(** It ends, in debug and release builds, for all values of type u32. *)
Theorem C07_terminates : forall debug g v, (forall s c, value_of v s = Some c -> (c <= u32_max)%N) ->
  (exists v', rhs_closure_with_values debug g v = Ok v') \/
  rhs_closure_with_values debug g v = Panic.
Proof. exact values_terminates. Qed.
Print Assumptions C07_terminates.

(** In a debug build a result is always the minimum. *)
Theorem C07_minimal : forall g v v', (forall s c, value_of v s = Some c -> (c <= u32_max)%N) ->
  rhs_closure_with_values true g v = Ok v' ->
  length v' = length v /\
  forall s, least (tree_cost (prods g) (value_of v) s) (value_of v' s).
Proof. intros g v v' HF E. exact (values_exact g v HF v' E). Qed.
Print Assumptions C07_minimal.

(** There is a result when no sum exceeds u32, and release builds give the same one. Only the
    finitely many trees without repeated symbols on a path matter. *)
Theorem C07_no_overflow : forall g v, closed_rules g -> num_syms g <= length v ->
  (forall s c, value_of v s = Some c -> (c <= u32_max)%N) ->
  (forall A r pre suf c, prods g A r -> r = pre ++ suf -> short_forest (prods g) (value_of v) [] pre c ->
     (c <= u32_max)%N) ->
  exists v', rhs_closure_with_values true g v = Ok v' /\ rhs_closure_with_values false g v = Ok v' /\
  length v' = length v /\
  forall s, least (tree_cost (prods g) (value_of v) s) (value_of v' s).
Proof.
  intros g v HC HL HF HS. destruct (values_no_panic g v HF HC HL HS) as [v' E].
  exists v'. split; [exact E|]. split; [exact (values_release g v v' E)|].
  exact (values_exact g v HF v' E).
Qed.
Print Assumptions C07_no_overflow.

Example C07_example :
  rhs_closure_with_values true ex_g [None; Some 0; Some 1; Some 1; Some 1; Some 1; Some 1; Some 1]%N
  = Ok [Some 4; Some 0; Some 1; Some 1; Some 1; Some 1; Some 1; Some 1]%N /\
  rhs_closure_with_values true ex_cyc [None; None; None; Some 7; None]%N
  = Ok [Some 7; Some 7; Some 7; Some 7; None]%N.
Proof. vm_compute. auto. Qed.

(** The condition can be checked by computation. *)
Fixpoint tree_cap (fuel : nat) (l : list rule) (v : list (option N)) (avoid : list nat) (s : nat) : option N :=
  match fuel with
  | 0 => None
  | S f =>
      if mem s avoid then Some 0%N
      else fold_right (fun r m =>
             if lhs r =? s then
               match m, fold_right (fun x a => match tree_cap f l v (s :: avoid) x, a with
                                               | Some c, Some d => Some (c + d)%N
                                               | _, _ => None
                                               end) (Some 0%N) (rhs r) with
               | Some c, Some d => Some (N.max c d)
               | _, _ => None
               end
             else m) (Some (match value_of v s with Some c => c | None => 0%N end)) l
  end.
Definition forest_cap fuel l v avoid u : option N :=
  fold_right (fun x a => match tree_cap fuel l v avoid x, a with
                         | Some c, Some d => Some (c + d)%N
                         | _, _ => None
                         end) (Some 0%N) u.
Lemma forest_cap_spec : forall g v fuel avoid u c, short_forest (prods g) (value_of v) avoid u c ->
  forall b, forest_cap fuel (rules g) v avoid u = Some b -> (c <= b)%N.
Proof.
  intros g v fuel avoid u c H. revert fuel.
  assert (HM : forall f avoid s l b x, incl l (rules g) ->
     fold_right (fun r m => if lhs r =? s then match m, forest_cap f (rules g) v (s :: avoid) (rhs r) with
               | Some c, Some d => Some (N.max c d) | _, _ => None end else m) (Some x) l = Some b ->
     (x <= b)%N /\ forall r, In r l -> lhs r = s -> exists d, forest_cap f (rules g) v (s :: avoid) (rhs r) = Some d /\ (d <= b)%N).
  { intros f av s l. induction l as [|r l IH]; intros b x HI E; cbn [fold_right] in E.
    - injection E as <-. split; [lia|]. intros r [].
    - destruct (Nat.eqb_spec (lhs r) s) as [Es|Es].
      + destruct (fold_right _ (Some x) l) as [m|] eqn:EM; [|discriminate].
        destruct (forest_cap f (rules g) v (s :: av) (rhs r)) as [d|] eqn:ED; [|discriminate].
        injection E as <-. destruct (IH m x) as [H1 H2]; [intros y Hy; apply HI; right; auto|exact EM|].
        split; [lia|]. intros r' [<-|Hr'] L; [exists d; split; auto; lia|].
        destruct (H2 r' Hr' L) as [d' [E' L']]. exists d'. split; auto. lia.
      + destruct (IH b x) as [H1 H2]; [intros y Hy; apply HI; right; auto|exact E|]. split; auto.
        intros r' [<-|Hr'] L; [congruence|auto]. }
  assert (HC : forall f av s u b, forest_cap f (rules g) v av (s :: u) = Some b ->
     exists x y, tree_cap f (rules g) v av s = Some x /\ forest_cap f (rules g) v av u = Some y /\ b = (x + y)%N).
  { intros f av s u0 b E. cbn [forest_cap fold_right] in E. fold (forest_cap f (rules g) v av u0) in E.
    destruct (tree_cap f (rules g) v av s); [|discriminate]. destruct (forest_cap f (rules g) v av u0); [|discriminate].
    injection E as <-. eauto. }
  induction H as [av|av s u c d Ha Hv _ IH|av A r u c d Ha HP Hn _ IH1 _ IH2]; intros fuel b E.
  - apply N.le_0_l.
  - destruct (HC _ _ _ _ _ E) as [x [y [E1 [E2 ->]]]]. specialize (IH _ _ E2).
    destruct fuel as [|f]; [discriminate|]. cbn [tree_cap] in E1. apply mem_not_In in Ha. rewrite Ha in E1.
    rewrite Hv in E1. apply HM in E1; [|intros ?; auto]. lia.
  - destruct (HC _ _ _ _ _ E) as [x [y [E1 [E2 ->]]]]. specialize (IH2 _ _ E2).
    destruct fuel as [|f]; [discriminate|]. cbn [tree_cap] in E1. apply mem_not_In in Ha. rewrite Ha in E1.
    apply HM in E1; [|intros ?; auto]. destruct E1 as [_ E1]. destruct HP as [z [Hz [HL <-]]].
    destruct (E1 z Hz HL) as [e [E3 E4]]. specialize (IH1 _ _ E3). lia.
Qed.
Definition sums_cap (g : cfg) (v : list (option N)) : bool :=
  forallb (fun r => forallb (fun k => match forest_cap (S (num_syms g)) (rules g) v [] (firstn k (rhs r)) with
                                      | Some b => (b <=? u32_max)%N
                                      | None => false
                                      end) (seq 0 (S (List.length (rhs r))))) (rules g).
Lemma sums_cap_spec : forall g v, sums_cap g v = true ->
  forall A r pre suf c, prods g A r -> r = pre ++ suf -> short_forest (prods g) (value_of v) [] pre c -> (c <= u32_max)%N.
Proof.
  intros g v H A r pre suf c [x [Hx [_ HR]]] E HF. unfold sums_cap in H. rewrite forallb_forall in H.
  specialize (H x Hx). rewrite forallb_forall in H. specialize (H (List.length pre)).
  assert (HI : In (List.length pre) (seq 0 (S (List.length (rhs x))))).
  { apply in_seq. rewrite HR, E, app_length. lia. }
  specialize (H HI). rewrite HR, E, firstn_app, firstn_all, Nat.sub_diag, firstn_O, app_nil_r in H.
  destruct (forest_cap _ _ _ _ _) as [b|] eqn:EB; [|discriminate]. apply N.leb_le in H.
  pose proof (forest_cap_spec _ _ _ _ _ _ HF _ EB). lia.
Qed.
Example C07_no_overflow_example :
  sums_cap ex_g [None; Some 0; Some 1; Some 1; Some 1; Some 1; Some 1; Some 1]%N = true /\
  sums_cap ex_cyc [None; None; None; Some 7; None]%N = true.
Proof. vm_compute. auto. Qed.

(** What happens otherwise: sums above u32 panic in debug builds and wrap in release builds. *)
Example C07_overflow_example :
  let g := mkCfg (mkSrc 2 [None; None]) [mkRule 0 [1; 1] hd0] [0] [] None in
  rhs_closure_with_values true g [None; Some 2147483648]%N = Panic /\
  rhs_closure_with_values false g [None; Some 2147483648]%N = Ok [Some 0; Some 2147483648]%N.
Proof. vm_compute. auto. Qed.

(** ** C08 *)

(** The method returns the opposite: true exactly when the set has a member. *)
Theorem C08_inverted_partial : forall b, bs_is_empty b = true <-> exists s, member b s.
Proof. exact bs_is_empty_spec. Qed.
Print Assumptions C08_inverted_partial.

Theorem C08_refuted : forall b, ~ (bs_is_empty b = true <-> forall s, ~ member b s).
Proof.
  intros b [H1 H2]. destruct (bs_is_empty b) eqn:E.
  - apply bs_is_empty_spec in E. destruct E as [s Hs]. exact (H1 eq_refl s Hs).
  - assert (bs_is_empty b <> true) by congruence. rewrite bs_is_empty_spec in H.
    assert (false = true) by (apply H2; intros s Hs; apply H; eauto). discriminate.
Qed.
Print Assumptions C08_refuted.
