(** The parse trees of the example grammar [ambiguous_math]. *)

From Coq Require Import List Arith Bool Lia.
From Verif Require Import Base ListFacts Spec SpecTree SpecExample TreeProof TreeLang.
Import ListNotations.

Definition math_rules : list (nat * list nat) :=
  [(0, [0; 1; 0]); (0, [2]); (1, [3]); (1, [4]); (1, [5]); (1, [6])] ++ flat_map (fun d => [(2, [d; 2]); (2, [d])]) (seq 7 10).
Local Notation R := math_rules.

Lemma rule_cases : forall i A r, nth_error R i = Some (A, r) ->
  (i = 0 /\ A = 0 /\ r = [0; 1; 0]) \/ (i = 1 /\ A = 0 /\ r = [2]) \/ (exists o, operator o /\ i = o - 1 /\ A = 1 /\ r = [o]) \/
  (exists d, digit d /\ A = 2 /\ ((i = 2 * d - 8 /\ r = [d; 2]) \/ (i = 2 * d - 7 /\ r = [d]))).
Proof.
  intros i A r H. unfold operator, digit.
  do 26 (destruct i as [|i]; [injection H as <- <-; first
    [ left; auto; fail | right; left; auto; fail
    | right; right; left; eexists; (split; [|split; [|split; [reflexivity|reflexivity]]]); lia
    | right; right; right; eexists; (split; [|split; [reflexivity|left; split; [|reflexivity]]]); lia
    | right; right; right; eexists; (split; [|split; [reflexivity|right; split; [|reflexivity]]]); lia ]|]).
  destruct i; discriminate.
Qed.

Lemma rule_op : forall o, operator o -> nth_error R (o - 1) = Some (1, [o]).
Proof. intros o H. unfold operator in H. do 7 (destruct o; [first [lia|reflexivity]|]). lia. Qed.
Lemma rule_last : forall d, digit d -> nth_error R (2 * d - 7) = Some (2, [d]).
Proof. intros d H. unfold digit in H. do 17 (destruct d; [first [lia|reflexivity]|]). lia. Qed.
Lemma rule_more : forall d, digit d -> nth_error R (2 * d - 8) = Some (2, [d; 2]).
Proof. intros d H. unfold digit in H. do 17 (destruct d; [first [lia|reflexivity]|]). lia. Qed.

Lemma leaf_iff : forall t s, 3 <= s -> (parses R s t <-> t = Leaf s).
Proof.
  intros t s H. split.
  - intros P. destruct t as [x|i ts]; [apply parses_leaf_inv in P; destruct P as [-> _]; auto|].
    apply parses_node_inv in P. destruct P as [r [P _]]. apply rule_cases in P.
    destruct P as [[_ [P _]]|[[_ [P _]]|[[o [_ [_ [P _]]]]|[d [_ [P _]]]]]]; lia.
  - intros ->. constructor. intros r P. apply In_nth_error in P. destruct P as [i P]. apply rule_cases in P.
    destruct P as [[_ [P _]]|[[_ [P _]]|[[o [_ [_ [P _]]]]|[d [_ [P _]]]]]]; lia.
Qed.

Lemma no_leaf : forall A s, A < 3 -> ~ parses R A (Leaf s).
Proof.
  intros A s H P. apply parses_leaf_inv in P. destruct P as [<- P]. destruct A as [|[|[|A]]]; [| | |lia].
  - apply (P [2]). simpl. auto.
  - apply (P [3]). simpl. auto.
  - apply (P [7]). simpl. auto 12.
Qed.

Definition op_tree (o : nat) : tree := Node (o - 1) [Leaf o].
Fixpoint num_tree (w : list nat) : tree :=
  match w with
  | [] => Leaf 0
  | d :: w' => match w' with [] => Node (2 * d - 7) [Leaf d] | _ => Node (2 * d - 8) [Leaf d; num_tree w'] end
  end.

Lemma op_iff : forall t, parses R 1 t <-> exists o, operator o /\ t = op_tree o.
Proof.
  intros t. split.
  - intros P. destruct t as [x|i ts]; [exfalso; revert P; apply no_leaf; lia|]. apply parses_node_inv in P. destruct P as [r [P F]]. apply rule_cases in P.
    destruct P as [[_ [P _]]|[[_ [P _]]|[[o [HO [-> [_ ->]]]]|[d [_ [P _]]]]]]; try lia.
    inversion F as [|? t ? ts' F1 F2]; subst. inversion F2; subst. apply leaf_iff in F1; [|unfold operator in HO; lia]. subst. exists o. auto.
  - intros [o [HO ->]]. econstructor; [apply rule_op; exact HO|]. constructor; [|constructor]. apply leaf_iff; [unfold operator in HO; lia|auto].
Qed.

Lemma num_yield : forall w, w <> [] -> yield (num_tree w) = w.
Proof.
  induction w as [|d w IH]; intros H; [congruence|]. destruct w as [|e w]; [reflexivity|].
  change (yield (num_tree (d :: e :: w))) with (d :: yield (num_tree (e :: w)) ++ []). rewrite app_nil_r, IH; [reflexivity|discriminate].
Qed.

Lemma num_parses : forall w, number w -> parses R 2 (num_tree w).
Proof.
  induction w as [|d w IH]; intros [H F]; [congruence|]. inversion F as [|? ? D F']; subst. assert (L : parses R d (Leaf d)) by (apply leaf_iff; [unfold digit in D; lia|auto]).
  destruct w as [|e w].
  - econstructor; [apply rule_last; exact D|]. constructor; [exact L|constructor].
  - change (num_tree (d :: e :: w)) with (Node (2 * d - 8) [Leaf d; num_tree (e :: w)]). econstructor; [apply rule_more; exact D|].
    constructor; [exact L|]. constructor; [|constructor]. apply IH. split; [discriminate|exact F'].
Qed.

Lemma num_iff : forall t, parses R 2 t <-> exists w, number w /\ t = num_tree w.
Proof.
  intros t. split; [|intros [w [H ->]]; apply num_parses; exact H].
  induction t as [x|i ts IH] using tree_ind2; intros P; [exfalso; revert P; apply no_leaf; lia|]. apply parses_node_inv in P. destruct P as [r [P F]]. apply rule_cases in P.
  destruct P as [[_ [P _]]|[[_ [P _]]|[[o [_ [_ [P _]]]]|[d [HD [_ P]]]]]]; try lia.
  assert (D3 : 3 <= d) by (unfold digit in HD; lia). destruct P as [[-> ->]|[-> ->]].
  - inversion F as [|? t ? ts' F1 F2]; subst. inversion F2 as [|? u ? ts'' F3 F4]; subst. inversion F4; subst. apply leaf_iff in F1; [|exact D3]. subst.
    inversion IH as [|? ? _ IH']; subst. inversion IH' as [|? ? I _]; subst. destruct (I F3) as [w [[W1 W2] ->]]. exists (d :: w). split.
    + split; [discriminate|constructor; auto].
    + destruct w; [congruence|reflexivity].
  - inversion F as [|? t ? ts' F1 F2]; subst. inversion F2; subst. apply leaf_iff in F1; [|exact D3]. subst. exists [d]. split; [|reflexivity].
    split; [discriminate|constructor; auto].
Qed.

Lemma expr_cases : forall t, parses R 0 t ->
  (exists w, number w /\ t = Node 1 [num_tree w]) \/ exists t1 o t2, parses R 0 t1 /\ operator o /\ parses R 0 t2 /\ t = Node 0 [t1; op_tree o; t2].
Proof.
  intros t P. destruct t as [x|i ts]; [exfalso; revert P; apply no_leaf; lia|]. apply parses_node_inv in P. destruct P as [r [P F]]. apply rule_cases in P.
  destruct P as [[-> [_ ->]]|[[-> [_ ->]]|[[o [_ [_ [P _]]]]|[d [_ [P _]]]]]]; try lia.
  - right. inversion F as [|? t1 ? l1 F1 G1]; subst. inversion G1 as [|? t2 ? l2 F2 G2]; subst. inversion G2 as [|? t3 ? l3 F3 G3]; subst. inversion G3; subst.
    apply op_iff in F2. destruct F2 as [o [HO ->]]. exists t1, o, t3. auto.
  - left. inversion F as [|? t1 ? l1 F1 G1]; subst. inversion G1; subst. apply num_iff in F1. destruct F1 as [w [HW ->]]. exists w. auto.
Qed.

Lemma expr_num : forall w, number w -> parses R 0 (Node 1 [num_tree w]).
Proof. intros w H. eapply (parses_node R 0 [2]); [reflexivity|]. constructor; [apply num_parses; exact H|constructor]. Qed.
Lemma expr_op : forall t1 o t2, parses R 0 t1 -> operator o -> parses R 0 t2 -> parses R 0 (Node 0 [t1; op_tree o; t2]).
Proof.
  intros t1 o t2 H1 HO H2. eapply (parses_node R 0 [0; 1; 0]); [reflexivity|]. constructor; [exact H1|]. constructor; [apply op_iff; eauto|]. constructor; [exact H2|constructor].
Qed.

(** A sentence as its first number, and the operators with the numbers after them. *)
Definition flat (x : list nat) (l : list (nat * list nat)) : list nat := x ++ flat_map (fun p => fst p :: snd p) l.
Definition pair_ok (p : nat * list nat) : Prop := operator (fst p) /\ number (snd p).
Definition chain_ok (x : list nat) (l : list (nat * list nat)) : Prop := number x /\ Forall pair_ok l.

Lemma flat_app : forall x a o y b, flat x (a ++ (o, y) :: b) = flat x a ++ o :: flat y b.
Proof. intros. unfold flat. rewrite flat_map_app. simpl. rewrite <- !app_assoc. reflexivity. Qed.

Lemma digits_unique : forall x y u v, Forall digit x -> Forall digit y -> (forall a u', u = a :: u' -> operator a) -> (forall a v', v = a :: v' -> operator a) ->
  x ++ u = y ++ v -> x = y /\ u = v.
Proof.
  unfold digit, operator. induction x as [|a x IH]; intros y u v X Y U V E.
  - destruct y as [|b y]; auto. simpl in E. inversion Y; subst. pose proof (U _ _ eq_refl). lia.
  - destruct y as [|b y].
    + simpl in E. inversion X; subst. pose proof (V _ _ eq_refl). lia.
    + simpl in E. injection E as <- E. inversion X; inversion Y; subst. destruct (IH y u v) as [-> ->]; auto.
Qed.

Lemma head_op : forall l, Forall pair_ok l -> forall a u', flat_map (fun p : nat * list nat => fst p :: snd p) l = a :: u' -> operator a.
Proof. intros l F a u' E. destruct l as [|p l]; [discriminate|]. simpl in E. injection E as <- _. inversion F as [|? ? [H _] _]; subst. exact H. Qed.

Lemma flat_unique : forall l x m y, chain_ok x l -> chain_ok y m -> flat x l = flat y m -> x = y /\ l = m.
Proof.
  induction l as [|[o z] l IH]; intros x m y [[X1 X2] F] [[Y1 Y2] G] E; unfold flat in E; apply digits_unique in E; eauto using head_op; destruct E as [-> E]; split; auto.
  - destruct m; [reflexivity|discriminate].
  - destruct m as [|[o' z'] m]; [discriminate|]. simpl in E. injection E as <- E. inversion F as [|? ? [_ F1] F2]; inversion G as [|? ? [_ G1] G2]; subst.
    destruct (IH z m z') as [-> ->]; auto; split; auto.
Qed.

Lemma expr_chain : forall t, parses R 0 t -> exists x l, chain_ok x l /\ yield t = flat x l.
Proof.
  induction t as [x|i ts IH] using tree_ind2; intros P; [exfalso; revert P; apply no_leaf; lia|]. apply expr_cases in P. destruct P as [[w [HW E]]|[t1 [o [t2 [P1 [HO [P2 E]]]]]]]; injection E as -> ->.
  - exists w, []. split; [split; auto|]. simpl. rewrite app_nil_r, num_yield; [|apply HW]. unfold flat. simpl. rewrite app_nil_r. reflexivity.
  - inversion IH as [|? ? I1 IH']; subst. inversion IH' as [|? ? _ IH'']; subst. inversion IH'' as [|? ? I2 _]; subst.
    destruct (I1 P1) as [x [l [[C1 C2] E1]]]. destruct (I2 P2) as [y [m [[D1 D2] E2]]]. exists x, (l ++ (o, y) :: m). split.
    + split; auto. apply Forall_app. split; auto. constructor; auto. split; auto.
    + rewrite flat_app. simpl. rewrite app_nil_r, E1, E2. reflexivity.
Qed.

(** All trees of a sentence: the operator at the root is any of its operators. *)
Fixpoint gen (f : nat) (x : list nat) (l : list (nat * list nat)) : list tree :=
  match f with
  | 0 => []
  | S f' =>
      match l with
      | [] => [Node 1 [num_tree x]]
      | _ => flat_map (fun i => let p := nth i l (0, []) in
               map (fun q => Node 0 [fst q; op_tree (fst p); snd q]) (list_prod (gen f' x (firstn i l)) (gen f' (snd p) (skipn (S i) l)))) (seq 0 (length l))
      end
  end.

Lemma split_at : forall (T : Type) (d : T) i l, i < length l -> l = firstn i l ++ nth i l d :: skipn (S i) l.
Proof. intros T d i. induction i as [|i IH]; intros l H; destruct l as [|a l]; simpl in H; try lia; [reflexivity|]. simpl. f_equal. apply IH. lia. Qed.

Lemma split_ok : forall i x l, i < length l -> chain_ok x l -> let p := nth i l (0, []) in
  chain_ok x (firstn i l) /\ operator (fst p) /\ chain_ok (snd p) (skipn (S i) l) /\ flat x l = flat x (firstn i l) ++ fst p :: flat (snd p) (skipn (S i) l).
Proof.
  intros i x l H [C1 C2] p. assert (E : l = firstn i l ++ p :: skipn (S i) l) by (apply split_at; exact H).
  assert (F : Forall pair_ok (firstn i l ++ p :: skipn (S i) l)) by (rewrite <- E; exact C2). apply Forall_app in F. destruct F as [F1 F2]. inversion F2 as [|? ? [F3 F4] F5]; subst.
  split; [split; auto|]. split; auto. split; [split; auto|]. rewrite E at 1. destruct p as [o y]. apply flat_app.
Qed.

Lemma gen_S : forall f x p l0, gen (S f) x (p :: l0) =
  flat_map (fun i => let q := nth i (p :: l0) (0, []) in
    map (fun z => Node 0 [fst z; op_tree (fst q); snd z]) (list_prod (gen f x (firstn i (p :: l0))) (gen f (snd q) (skipn (S i) (p :: l0))))) (seq 0 (length (p :: l0))).
Proof. reflexivity. Qed.

Lemma gen_sound : forall f x l t, chain_ok x l -> In t (gen f x l) -> parses R 0 t /\ yield t = flat x l.
Proof.
  induction f as [|f IH]; intros x l t C H; [contradiction|]. destruct l as [|p0 l0].
  - destruct H as [<-|[]]. destruct C as [C _]. split; [apply expr_num; exact C|]. simpl. rewrite num_yield; [reflexivity|apply C].
  - rewrite gen_S in H. remember (p0 :: l0) as l eqn:El. cbv zeta in H. apply in_flat_map in H. destruct H as [i [Hi H]]. apply in_seq in Hi. apply in_map_iff in H. destruct H as [[t1 t2] [<- H]].
    apply in_prod_iff in H. destruct H as [H1 H2]. destruct (split_ok i x l) as [S1 [S2 [S3 S4]]]; [lia|exact C|].
    apply IH in H1; [|exact S1]. apply IH in H2; [|exact S3]. destruct H1 as [P1 Y1]. destruct H2 as [P2 Y2]. split; [apply expr_op; auto|].
    rewrite S4. simpl yield. rewrite app_nil_r. unfold op_tree. simpl. rewrite Y1, Y2. reflexivity.
Qed.

Lemma gen_complete : forall f x l t, length l < f -> chain_ok x l -> parses R 0 t -> yield t = flat x l -> In t (gen f x l).
Proof.
  induction f as [|f IH]; intros x l t HF C P Y; [lia|]. apply expr_cases in P. destruct P as [[w [HW ->]]|[t1 [o [t2 [P1 [HO [P2 ->]]]]]]].
  - simpl in Y. rewrite app_nil_r, num_yield in Y; [|apply HW]. destruct (flat_unique [] w l x) as [-> <-]; [split; auto|exact C| |left; reflexivity].
    rewrite <- Y. unfold flat. simpl. apply app_nil_r.
  - destruct (expr_chain t1 P1) as [x1 [a [[A1 A2] E1]]]. destruct (expr_chain t2 P2) as [y [b [[B1 B2] E2]]].
    simpl in Y. rewrite app_nil_r, E1, E2, <- flat_app in Y. apply flat_unique in Y; [|split; auto; apply Forall_app; split; auto; constructor; auto; split; auto|exact C].
    destruct Y as [-> <-]. rewrite app_length in HF. simpl in HF. destruct (a ++ (o, y) :: b) as [|p l0] eqn:El; [destruct a; discriminate|].
    rewrite gen_S, <- El. apply in_flat_map. exists (length a). split; [apply in_seq; rewrite app_length; simpl; lia|].
    cbv zeta. rewrite app_nth2, Nat.sub_diag by lia. simpl nth. rewrite firstn_app, Nat.sub_diag, firstn_all, firstn_O, app_nil_r. 
    replace (skipn (S (length a)) (a ++ (o, y) :: b)) with b.
    2: { rewrite skipn_app, skipn_all2 by lia. replace (S (length a) - length a) with 1 by lia. reflexivity. }
    apply in_map_iff. exists (t1, t2). split; [reflexivity|]. apply in_prod_iff. split; (apply IH; [lia| |assumption|assumption]); split; auto.
Qed.

Lemma NoDup_flat_map : forall (A B : Type) (f : A -> list B) l, NoDup l -> (forall x, In x l -> NoDup (f x)) ->
  (forall x y z, In x l -> In y l -> In z (f x) -> In z (f y) -> x = y) -> NoDup (flat_map f l).
Proof.
  intros A B f l N. induction N as [|x l H N IH]; intros H1 H2; simpl; [constructor|]. apply NoDup_app. split; [|split].
  - apply H1. left. auto.
  - apply IH; intros; [apply H1; right; auto|]. eapply H2; [right|right| |]; eauto.
  - intros z Z1 Z2. apply in_flat_map in Z2. destruct Z2 as [y [Y1 Y2]]. apply H. rewrite (H2 x y z); auto; [left; auto|right; auto].
Qed.

Lemma NoDup_list_prod : forall (A B : Type) (l : list A) (m : list B), NoDup l -> NoDup m -> NoDup (list_prod l m).
Proof.
  intros A B l m N M. induction N as [|x l H N IH]; simpl; [constructor|]. apply NoDup_app. split; [|split]; auto.
  - clear - M. induction M; simpl; constructor; auto. rewrite in_map_iff. intros [y [E Y]]. injection E as ->. auto.
  - intros [a b] X1 X2. apply in_map_iff in X1. destruct X1 as [y [E _]]. injection E as <- _. apply in_prod_iff in X2. apply H, X2.
Qed.

Lemma gen_nodup : forall f x l, chain_ok x l -> NoDup (gen f x l).
Proof.
  induction f as [|f IH]; intros x l C; [constructor|]. destruct l as [|p l0]; [constructor; [intros []|constructor]|].
  rewrite gen_S. remember (p :: l0) as l eqn:El. clear p l0 El. apply NoDup_flat_map; [apply seq_NoDup| |].
  - intros i Hi. apply in_seq in Hi. destruct (split_ok i x l) as [S1 [S2 [S3 S4]]]; [lia|exact C|]. cbv zeta.
    pose proof (NoDup_list_prod _ _ _ _ (IH _ _ S1) (IH _ _ S3)) as N. clear - N. induction N as [|q m H N IHN]; simpl; constructor; auto.
    rewrite in_map_iff. intros [[y1 y2] [E Y]]. injection E as E1 E2. destruct q as [q1 q2]. simpl in *. subst. auto.
  - intros i j t Hi Hj Ti Tj. apply in_seq in Hi. apply in_seq in Hj. cbv zeta in Ti, Tj. apply in_map_iff in Ti. apply in_map_iff in Tj.
    destruct Ti as [[t1 t2] [Et Ti]]. destruct Tj as [[u1 u2] [Eu Tj]]. rewrite <- Eu in Et. injection Et as E1 _ _. simpl in E1. subst u1.
    apply in_prod_iff in Ti. apply in_prod_iff in Tj. destruct (split_ok i x l) as [S1 _]; [lia|exact C|]. destruct (split_ok j x l) as [S2 _]; [lia|exact C|].
    destruct (gen_sound _ _ _ _ S1 (proj1 Ti)) as [_ Y1]. destruct (gen_sound _ _ _ _ S2 (proj1 Tj)) as [_ Y2]. rewrite Y1 in Y2.
    apply flat_unique in Y2; auto. destruct Y2 as [_ E]. apply (f_equal (@length _)) in E. rewrite !firstn_length in E. lia.
Qed.

(** Their number. *)
Fixpoint cat (f n : nat) : nat :=
  match f with
  | 0 => 0
  | S f' => match n with 0 => 1 | S m => list_sum (map (fun i => cat f' i * cat f' (m - i)) (seq 0 (S m))) end
  end.

Lemma cat_S : forall f m, cat (S f) (S m) = list_sum (map (fun i => cat f i * cat f (m - i)) (seq 0 (S m))).
Proof. reflexivity. Qed.

Lemma cat_fuel : forall f f' n, n < f -> n < f' -> cat f n = cat f' n.
Proof.
  induction f as [|f IH]; intros f' n H H'; [lia|]. destruct f' as [|f']; [lia|]. destruct n as [|m]; [reflexivity|].
  rewrite !cat_S. f_equal. apply map_ext_in. intros i Hi. apply in_seq in Hi. f_equal; apply IH; lia.
Qed.

Lemma cat_catalan : catalan (fun n => cat (S n) n).
Proof.
  split; [reflexivity|]. intros n. rewrite cat_S. f_equal. apply map_ext_in. intros i Hi. apply in_seq in Hi. f_equal; apply cat_fuel; lia.
Qed.

Lemma length_flat_map : forall (A B : Type) (f : A -> list B) l, length (flat_map f l) = list_sum (map (fun x => length (f x)) l).
Proof. intros A B f l. induction l as [|x l IH]; simpl; auto. rewrite app_length, IH. reflexivity. Qed.

Lemma gen_length : forall f x l, length (gen f x l) = cat f (length l).
Proof.
  induction f as [|f IH]; intros x l; [reflexivity|]. destruct l as [|p l0]; [reflexivity|]. rewrite gen_S. remember (p :: l0) as l eqn:El.
  rewrite length_flat_map. replace (length l) with (S (length l0)) by (subst; reflexivity). rewrite cat_S. f_equal. apply map_ext_in. intros i Hi. apply in_seq in Hi.
  cbv zeta. rewrite map_length, prod_length, !IH, firstn_length, skipn_length. subst l. simpl length. f_equal; f_equal; lia.
Qed.

Lemma expression_chain : forall n w, expression n w <-> exists x l, chain_ok x l /\ length l = n /\ w = flat x l.
Proof.
  intros n w. split.
  - induction 1 as [x H|n x o w HX HO H [y [l [[C1 C2] [<- ->]]]]].
    + exists x, []. unfold flat. simpl. rewrite app_nil_r. repeat split; auto; apply H.
    + exists x, ((o, y) :: l). split; [split; auto; constructor; auto; split; auto|]. auto.
  - intros [x [l [C [<- ->]]]]. revert x C. induction l as [|[o y] l IH]; intros x [C1 C2].
    + unfold flat. simpl. rewrite app_nil_r. constructor. exact C1.
    + inversion C2 as [|? ? [H1 H2] H3]; subst. unfold flat. simpl. apply (expression_operator (length l) x o (flat y l)); auto. apply IH. split; auto.
Qed.

Lemma math_trees : forall n w, expression n w ->
  exists L, NoDup L /\ length L = cat (S n) n /\ forall t, In t L <-> parses R 0 t /\ yield t = w.
Proof.
  intros n w H. apply expression_chain in H. destruct H as [x [l [C [<- ->]]]]. exists (gen (S (length l)) x l). split; [apply gen_nodup, C|]. split; [apply gen_length|].
  intros t. split; [apply gen_sound, C|]. intros [P Y]. apply gen_complete; auto.
Qed.

Lemma cat_pos : forall f n, n < f -> 0 < cat f n.
Proof.
  induction f as [|f IH]; intros n H; [lia|]. destruct n as [|m]; [simpl; lia|]. rewrite cat_S. cbn [seq map]. unfold list_sum. cbn [fold_right].
  pose proof (IH 0 ltac:(lia)). pose proof (IH (m - 0) ltac:(lia)). assert (0 < cat f 0 * cat f (m - 0)) by (apply Nat.mul_pos_pos; assumption). lia.
Qed.

Lemma cat_many : forall n, 2 <= n -> 2 <= cat (S n) n.
Proof.
  intros n H. destruct n as [|[|m]]; try lia. rewrite cat_S. rewrite (seq_S (S m) 0), map_app, list_sum_app, (seq_S m 0), map_app, list_sum_app.
  assert (P : forall i, i <= S m -> 0 < cat (S (S m)) i) by (intros i Hi; apply cat_pos; lia).
  assert (Q : forall i, i <= S m -> 1 <= list_sum (map (fun i => cat (S (S m)) i * cat (S (S m)) (S m - i)) [i])).
  { intros i Hi. pose proof (P i Hi). pose proof (P (S m - i) ltac:(lia)). cbn [map]. unfold list_sum. cbn [fold_right].
    assert (0 < cat (S (S m)) i * cat (S (S m)) (S m - i)) by (apply Nat.mul_pos_pos; assumption). lia. }
  pose proof (Q (0 + m) ltac:(lia)). pose proof (Q (0 + S m) ltac:(lia)). lia.
Qed.

Lemma math_language : forall w, language (of_list R) 0 w <-> exists n, expression n w.
Proof.
  intros w. rewrite parses_language. split.
  - intros [t [P <-]]. destruct (expr_chain t P) as [x [l [C E]]]. exists (length l). apply expression_chain. exists x, l. auto.
  - intros [n H]. destruct (math_trees n w H) as [L [_ [HL HT]]]. pose proof (cat_pos (S n) n ltac:(lia)) as HP. destruct L as [|t L]; [change (length (@nil tree)) with 0 in HL; lia|].
    exists t. apply HT. left. reflexivity.
Qed.
