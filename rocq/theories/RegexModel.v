(** Model of the crate [cfg-regexp-logic].  The parser of regular expressions (ext.rs 10-14
    calls regex_syntax) is not modelled; what it gives is [SpecRegex.hir]. *)

From Coq Require Import List Arith NArith Bool String.
From Verif Require Import Base SpecRegex SpecSeq SymbolModel LoopModel HistoryModel CfgModel SeqModel.
Import ListNotations.

(** * Characters *)

(** char::from_u32(n).unwrap() *)
Definition from_u32_unwrap (n : N) : res N :=
  if (n <? 55296)%N || ((57344 <=? n)%N && (n <=? 1114111)%N) then Ok n else Panic.

(** char::is_ascii *)
Definition is_ascii (c : N) : bool := (c <? 128)%N.

(** * Classes *)

(** Ord for (char, char) *)
Definition range_compare (a b : N * N) : comparison :=
  match N.compare (fst a) (fst b) with
  | Eq => N.compare (snd a) (snd b)
  | c => c
  end.

(** BTreeSet::insert, on a set kept as a sorted list *)
Fixpoint range_insert (r : N * N) (l : list (N * N)) : list (N * N) :=
  match l with
  | [] => [r]
  | x :: l' => match range_compare r x with
               | Lt => r :: l
               | Eq => l
               | Gt => x :: range_insert r l'
               end
  end.

(** lib.rs 16-19: struct LexerClasses *)
Definition lexer_classes := list (N * N).

(** lib.rs 21-27: From<u8>; the sum overflows for 255: panic in debug builds, 0 in release
    builds *)
Definition classes_of_byte (debug : bool) (b : N) : res lexer_classes :=
  if (b =? 255)%N then (if debug then Panic else Ok [(255, 0)]%N) else Ok [(b, b + 1)%N].

(** lib.rs 29-35: From<char> *)
Definition classes_of_char (c : N) : res lexer_classes :=
  do d <- from_u32_unwrap (c + 1); Ok [(c, d)].

(** lib.rs 37-53: From<Class>; bytes of a byte class become the characters with their numbers *)
Definition classes_of_class (ranges : list (N * N)) : lexer_classes :=
  fold_left (fun s r => range_insert r s) ranges [].

(** derive(Ord) for LexerClasses: BTreeSets are compared like their sorted sequences *)
Fixpoint classes_compare (a b : lexer_classes) : comparison :=
  match a, b with
  | [], [] => Eq
  | [], _ => Lt
  | _, [] => Gt
  | x :: a', y :: b' => match range_compare x y with
                        | Eq => classes_compare a' b'
                        | c => c
                        end
  end.

(** lib.rs 68: the public field [classes], a BTreeMap, kept as a sorted list *)
Definition class_table := list (lexer_classes * nat).

(** BTreeMap::get *)
Fixpoint table_get (t : class_table) (k : lexer_classes) : option nat :=
  match t with
  | [] => None
  | (k', s) :: t' => match classes_compare k' k with
                     | Eq => Some s
                     | _ => table_get t' k
                     end
  end.

(** BTreeMap::insert *)
Fixpoint table_put (t : class_table) (k : lexer_classes) (s : nat) : class_table :=
  match t with
  | [] => [(k, s)]
  | (k', s') :: t' => match classes_compare k k' with
                      | Lt => (k, s) :: t
                      | Eq => (k, s) :: t'
                      | Gt => (k', s') :: table_put t' k s
                      end
  end.

(** * The lexer map *)

(** lib.rs 66-71: struct LexerMap *)
Record lexer_map := mkLexer {
  lm_classes : class_table;
  lm_ascii : list (list nat);
  lm_ranges : list (N * list nat)
}.

(** lib.rs 74-80: new *)
Definition lexer_map_new : lexer_map := mkLexer [] [] [].

(** lib.rs 88: result[ascii as usize].push(symbol) *)
Definition ascii_push (s : nat) (t : list (list nat)) (i : nat) : res (list (list nat)) :=
  do l <- get_ix t i; set_ix t i (l ++ [s]).

(** lib.rs 86-90, for one range *)
Definition ascii_range (s : nat) (t : list (list nat)) (r : N * N) : res (list (list nat)) :=
  if is_ascii (fst r) then
    let hi := N.min (snd r) 256 in
    fold_res (ascii_push s) (seq (N.to_nat (fst r)) (N.to_nat (hi + 1) - N.to_nat (fst r))) t
  else Ok t.

(** lib.rs 83-92 *)
Definition ascii_table (t : class_table) : res (list (list nat)) :=
  fold_res (fun acc p => fold_res (ascii_range (snd p)) (fst p) acc) t (repeat [] 256).

(** lib.rs 97, 98-101: ranges.entry(k).or_insert(vec![]).push(v), on a map kept as a sorted list *)
Fixpoint event_push {A : Type} (m : list (N * list A)) (k : N) (v : A) : list (N * list A) :=
  match m with
  | [] => [(k, [v])]
  | (k', l) :: m' => match N.compare k k' with
                     | Lt => (k, [v]) :: m
                     | Eq => (k', l ++ [v]) :: m'
                     | Gt => (k', l) :: event_push m' k v
                     end
  end.

(** lib.rs 96-102, for one range *)
Definition range_events (s : nat) (m : list (N * list (bool * nat))) (r : N * N)
    : res (list (N * list (bool * nat))) :=
  let m1 := event_push m (fst r) (true, s) in
  do after <- from_u32_unwrap (snd r + 1);
  Ok (event_push m1 after (false, s)).

(** lib.rs 94-103 *)
Definition all_events (t : class_table) : res (list (N * list (bool * nat))) :=
  fold_res (fun acc p => fold_res (range_events (snd p)) (fst p) acc) t [].

(** BTreeSet<Symbol>::insert, on a set kept as a sorted list *)
Fixpoint sym_insert (s : nat) (l : list nat) : list nat :=
  match l with
  | [] => [s]
  | x :: l' => match Nat.compare s x with
               | Lt => s :: l
               | Eq => l
               | Gt => x :: sym_insert s l'
               end
  end.

(** lib.rs 107-113: one change of [work] *)
Definition apply_change (work : list nat) (c : bool * nat) : list nat :=
  if fst c then sym_insert (snd c) work else remove Nat.eq_dec (snd c) work.

(** lib.rs 104-118; the characters of [ranges] are distinct, so each gets a new entry *)
Fixpoint sweep (m : list (N * list (bool * nat))) (work : list nat) : list (N * list nat) :=
  match m with
  | [] => []
  | (ch, changes) :: m' =>
      let work' := fold_left apply_change changes work in
      (ch, work') :: sweep m' work'
  end.

(** lib.rs 82-120: compute *)
Definition compute (lm : lexer_map) : res lexer_map :=
  do a <- ascii_table (lm_classes lm);
  do ev <- all_events (lm_classes lm);
  Ok (mkLexer (lm_classes lm) a (sweep ev [])).

(** lib.rs 122-132: get *)
Definition lexer_get (lm : lexer_map) (ch : N) : res (list nat) :=
  if is_ascii ch then get_ix (lm_ascii lm) (N.to_nat ch)
  else Ok (match rev (filter (fun e => (fst e <=? ch)%N) (lm_ranges lm)) with
           | [] => []
           | e :: _ => snd e
           end).

(** * Translation of regular expressions *)

(** lib.rs 61-64: struct Translator *)
Record translator := mkTr { tr_cfg : cfg; tr_classes : class_table }.

(** lib.rs 172-179, 186-190: classes.entry(key).or_insert_with(|| next_sym(name)) *)
Definition class_sym (tr : translator) (k : lexer_classes) (name : option string) : nat * translator :=
  match table_get (tr_classes tr) k with
  | Some s => (s, tr)
  | None => let (s, g) := next_sym (tr_cfg tr) name in (s, mkTr g (table_put (tr_classes tr) k s))
  end.

(** lib.rs 171-181: one byte of a literal *)
Definition walk_byte (debug : bool) (p : list nat * translator) (b : N) : res (list nat * translator) :=
  do k <- classes_of_byte debug b;
  let (s, tr) := class_sym (snd p) k (Some (append "__byte" (string_of_nat (N.to_nat b)))) in
  Ok (fst p ++ [s], tr).

(** [let [s] = self.cfg.sym(); for rule in x { self.cfg.rule(s).rhs(rule) }]: lib.rs 154-157,
    209-212, 234-237, and with one rule 149-150, 204-205 *)
Definition new_symbol_with (tr : translator) (x : list (list nat)) : res (nat * translator) :=
  let (s, g) := next_sym (tr_cfg tr) None in
  do g' <- fold_res (fun g r => rule_rhs g s r) x g;
  Ok (s, mkTr g' (tr_classes tr)).

(** lib.rs 198-215 and 147-159: a symbol for the alternatives [x]; x = [] is handled by the callers *)
Definition symbol_for (tr : translator) (x : list (list nat)) : res (nat * translator) :=
  match x with
  | [[s]] => Ok (s, tr)
  | _ => new_symbol_with tr x
  end.

(** lib.rs 216: self.cfg.sequence(lhs).inclusive(min, max).rhs(rhs) *)
Definition add_repetition (debug : bool) (g : cfg) (l : nat) (min : N) (max : option N) (x : nat) : res cfg :=
  do b1 <- seq_builder_call (add_to_cfg debug) (seq_builder_new g) (SSequence l);
  do b2 <- seq_builder_call (add_to_cfg debug) b1 (SInclusive min max);
  do b3 <- seq_builder_call (add_to_cfg debug) b2 (SRhs x);
  Ok (sb_dest b3).

(** lib.rs 227-240: one part of a concatenation *)
Definition concat_part (result : list nat) (x : list (list nat)) (tr : translator) : res (list nat * translator) :=
  match x with
  | [] => Ok (result, tr)
  | [r] => Ok (result ++ r, tr)
  | _ => do (s, tr') <- new_symbol_with tr x; Ok (result ++ [s], tr')
  end.

(** lib.rs 165-260: walk_hir; printing is left out *)
Fixpoint walk_hir (debug : bool) (h : hir) (tr : translator) {struct h} : res (list (list nat) * translator) :=
  match h with
  | HLiteral bytes =>
      do (l, tr') <- fold_res (walk_byte debug) bytes ([], tr);
      Ok ([l], tr')
  | HClass ranges =>
      let (s, tr') := class_sym tr (classes_of_class ranges) None in
      Ok ([[s]], tr')
  | HRepetition min max sub =>
      let (l, g) := next_sym (tr_cfg tr) None in
      do (x, tr1) <- walk_hir debug sub (mkTr g (tr_classes tr));
      match x with
      | [] => Panic
      | _ =>
          do (s, tr2) <- symbol_for tr1 x;
          do g' <- add_repetition debug (tr_cfg tr2) l min max s;
          Ok ([[l]], mkTr g' (tr_classes tr2))
      end
  | HCapture sub => walk_hir debug sub tr
  | HConcat exprs =>
      do (r, tr') <-
        (fix walk_all (l : list hir) (result : list nat) (tr : translator) {struct l} : res (list nat * translator) :=
           match l with
           | [] => Ok (result, tr)
           | e :: l' =>
               do (x, tr1) <- walk_hir debug e tr;
               do (result', tr2) <- concat_part result x tr1;
               walk_all l' result' tr2
           end) exprs [] tr;
      Ok ([r], tr')
  | HAlternation exprs =>
      (fix walk_all (l : list hir) (result : list (list nat)) (tr : translator) {struct l}
           : res (list (list nat) * translator) :=
         match l with
         | [] => Ok (result, tr)
         | e :: l' =>
             do (x, tr1) <- walk_hir debug e tr;
             walk_all l' (result ++ x) tr1
         end) exprs [] tr
  | HLook => Panic
  | HEmpty => Ok ([[]], tr)
  end.

(** lib.rs 136-163: cfg_from_hir *)
Definition cfg_from_hir (debug : bool) (h : hir) : res (cfg * lexer_map) :=
  do (x, tr) <- walk_hir debug h (mkTr cfg_new []);
  do (l, tr') <-
    match x with
    | [] => new_symbol_with tr [[]]
    | _ => symbol_for tr x
    end;
  Ok (set_roots (tr_cfg tr') [l], mkLexer (tr_classes tr') [] []).
