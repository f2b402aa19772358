(** Property C47, continued: the characters of what is generated, when the character function uses the random source. *)

From Coq Require Import List Arith NArith Bool Lia.
From Verif Require Import Base LoopModel LoopFacts HistoryModel SymbolModel CfgModel BitSetModel FloatModel GenModel ListFacts SetsModel  PropsGen.
Import ListNotations.
Local Notation length := List.length.

(** The characters among optional characters. *)
Fixpoint chosen (l : list (option nat)) : list nat :=
  match l with
  | [] => []
  | Some c :: l' => c :: chosen l'
  | None :: l' => chosen l'
  end.

Lemma chosen_app : forall u v, chosen (u ++ v) = chosen u ++ chosen v.
Proof. induction u as [|[c|] u IH]; intros v; cbn; rewrite ?IH; auto. Qed.

(** The string has, in order, the characters that the function chose for the symbols of the result, one call for each symbol. *)
Theorem C47_chars : forall (R : Type) (generate : R -> f64 -> res (f64 * R)) (mutate_start : R -> N -> R)
    (to_char : nat -> R -> option nat * R) p g start limit rng result string,
  random generate mutate_start to_char p g start limit rng [] = Ok (Generated result string) ->
  exists cs, Forall2 (fun s c => exists r, fst (to_char s r) = c) result cs /\ string = chosen cs.
Proof.
  intros R generate ms tc p g start limit rng result string H. unfold random in H. apply bind_ok in H. destruct H as [ts [_ H]]. unfold run_loop in H.
  change (negative_map []) with (@nil (nat * list nat)) in H. set (step := gen_step generate ms tc (weighted g) ts [] limit) in *.
  set (I := fun st : @gen R => g_back st = [] /\
    exists cs, Forall2 (fun s c => exists r, fst (tc s r) = c) (g_result st) cs /\ g_string st = chosen cs).
  assert (HS : forall st, I st -> match step st with
    | inl st' => I st'
    | inr (Ok (Generated res str)) => res = g_result st /\ str = g_string st
    | inr _ => True end).
  { intros st [HB [cs [HC HE]]]. unfold step, gen_step. destruct (g_work st) as [|sym W]; auto. destruct (bs_get ts sym) as [[|]| |]; auto.
    - unfold gen_terminal. cbn [g_result g_string g_rng g_back g_work g_attempts]. rewrite HB. cbn [map_get].
      destruct (tc sym (g_rng st)) as [c rng'] eqn:Ec. destruct (match limit with Some lim => _ | None => false end); auto.
      split; auto. cbn [g_result g_string]. exists (cs ++ [c]). split.
      + apply Forall2_app; auto. constructor; auto. exists (g_rng st). rewrite Ec. auto.
      + rewrite chosen_app, <- HE. destruct c; cbn; rewrite ?app_nil_r; auto.
    - cbn [map_get]. destruct (pick_rhs generate (weighted g) sym (g_rng st)) as [[r rng']| |]; auto. split; auto. exists cs. auto. }
  destruct (iter_pow step p (mkGen [start] [] [] rng [] [])) as [s|r] eqn:E; [discriminate|].
  destruct (iter_pow_inv step I) with (p := p) (s := @mkGen R [start] [] [] rng [] []) (r := r) as [st [HI Hst]]; auto.
  - intros s s' Hs Es. specialize (HS s Hs). rewrite Es in HS. auto.
  - split; auto. exists []. split; auto. constructor.
  - specialize (HS st HI). rewrite Hst, H in HS. destruct HS as [-> ->]. exact (proj2 HI).
Qed.
Print Assumptions C47_chars.


(** The character of a symbol is drawn from the source: the byte after the ones that chose the production. *)
Example C47_chars_example :
  random bytes_generate bytes_mutate_start (fun s src => let (b, src') := next_byte src in (if s =? 2 then Some (N.to_nat b) else None, src')) 5
    ex_gen 0 None (mkBytes [10; 65; 20; 66; 200; 67; 68]%N []) [] = Ok (Generated [2; 2; 2; 3] [65; 66; 67]).
Proof. vm_compute. reflexivity. Qed.
