(* Spec_Parser.v - the grammar of gsiril's expressions, as a user would write it down. *)
From Verif Require Import Base M_Bell M_Gsiril M_Parser.
Set Implicit Arguments. Unset Strict Implicit.
Open Scope nat_scope.

(* Tokens in which the brackets match are a sequence of trees: tokens which are not
   brackets, and pairs of brackets with a sequence of trees between them. *)
Inductive tree := Leaf (t : token) | Group (o : token) (body : list tree) (c : token).
Fixpoint flat1 (x : tree) : list token :=
  match x with Leaf t => [t] | Group o b c => o :: flat_map flat1 b ++ [c] end.
Definition flat (xs : list tree) : list token := flat_map flat1 xs.
Definition pair_of (o c : tt) : Prop :=
  (o = KOParen /\ c = KCParen) \/ (o = KOBrace /\ c = KCBrace) \/ (o = KOBrack /\ c = KCBrack).
Inductive wf : tree -> Prop :=
| wf_leaf t : opens (tk t) = false -> closes (tk t) = false -> wf (Leaf t)
| wf_group o b c : pair_of (tk o) (tk c) -> Forall wf b -> wf (Group o b c).

(* None of the operators ks is in the sequence, outside brackets. *)
Definition free (ks : list tt) (xs : list tree) : Prop :=
  Forall (fun x => match x with Leaf t => ~ In (tk t) ks | Group _ _ _ => True end) xs.

(* The operators, from those that bind least: 0 are the assignments. *)
Definition ops (n : nat) : list tt :=
  match n with
  | 0 => [KAssign; KAppAssign; KImmAssign]
  | 1 => [KComma]
  | 2 => [KOr]
  | 3 => [KAnd]
  | 4 => [KEq; KNe; KGreater; KLess; KGe; KLe]
  | 5 => [KMerge]
  | 6 => [KLsh; KRsh]
  | 7 => [KPlus; KMinus]
  | 8 => [KTimes; KAppend; KDivide; KModulo]
  | _ => []
  end.
Definition all_ops : list tt := flat_map ops (seq 0 9).
(* what each one makes *)
Inductive op_node : tt -> expr -> expr -> expr -> Prop :=
| on_comma x y : op_node KComma x y (EList x y)
| on_or x y : op_node KOr x y (EOr x y)
| on_and x y : op_node KAnd x y (EAnd x y)
| on_eq x y : op_node KEq x y (ECmp CEq x y)
| on_ne x y : op_node KNe x y (ECmp CNe x y)
| on_gt x y : op_node KGreater x y (ECmp CGt x y)
| on_lt x y : op_node KLess x y (ECmp CLt x y)
| on_ge x y : op_node KGe x y (ECmp CGe x y)
| on_le x y : op_node KLe x y (ECmp CLe x y)
| on_merge x y : op_node KMerge x y (EMerge x y)
| on_lsh x y : op_node KLsh x y (EReplace x y false)        (* the end is replaced *)
| on_rsh x y : op_node KRsh x y (EReplace x y true)         (* the beginning is replaced *)
| on_plus x y : op_node KPlus x y (EAdd 1 x y)
| on_minus x y : op_node KMinus x y (EAdd (-1) x y)
| on_times x y : op_node KTimes x y (EMult x y)
| on_append x y : op_node KAppend x y (EAppend x y)
| on_div x y : op_node KDivide x y (EDiv x y)
| on_mod x y : op_node KModulo x y (EMod x y).

(* The words which stand for something other than a symbol. *)
Inductive word_node : text -> expr -> Prop :=
| wn_break : word_node (str "break") (EExn SBreak)
| wn_rounds : word_node (str "rounds") EIsrounds
| wn_true : word_node (str "true") (EBool true)
| wn_false : word_node (str "false") (EBool false)
| wn_bells : word_node (str "bells") EBells
| wn_length : word_node (str "length") ELength
| wn_endproof : word_node (str "endproof") EEndproof
| wn_proving : word_node (str "proving") EIsproving
| wn_symbol s :
    ~ In s (map str ["break"; "rounds"; "true"; "false"; "bells"; "length"; "endproof"; "proving";
                     "repeat"; "echo"; "save"]%string) ->
    word_node s (ESym s).
Definition word (s : string) (t : token) : Prop := tk t = KName /\ tx t = str s.

(* gram L n xs e: xs is a phrase which may have operators of level n and above outside
   brackets, and it means e.  Every operator takes to its right as much as it can. *)
Inductive gram (L : lits) : nat -> list tree -> expr -> Prop :=
| g_assign x op xs e :
    tk x = KName -> tk op = KAssign -> gram L 0 xs e -> gram L 0 (Leaf x :: Leaf op :: xs) (EAssign (tx x) e)
| g_assign_nothing x op :
    tk x = KName -> tk op = KAssign -> gram L 0 [Leaf x; Leaf op] (EAssign (tx x) ENop)
| g_append_assign x op xs e :
    tk x = KName -> tk op = KAppAssign -> gram L 0 xs e -> gram L 0 (Leaf x :: Leaf op :: xs) (EAppendAssign (tx x) e)
| g_imm_assign x op xs e :
    tk x = KName -> tk op = KImmAssign -> gram L 0 xs e -> gram L 0 (Leaf x :: Leaf op :: xs) (EImmAssign (tx x) e)
| g_bin n l op r e1 e2 e :
    1 <= n <= 8 -> In (tk op) (ops n) -> op_node (tk op) e1 e2 e ->
    gram L (S n) l e1 -> gram L n r e2 -> gram L n (l ++ Leaf op :: r) e
| g_up n xs e : n <= 8 -> gram L (S n) xs e -> gram L n xs e
(* from here on there are no operators outside brackets *)
| g_paren o b c e : tk o = KOParen -> gram L 0 b e -> gram L 9 [Group o b c] e
| g_block o b c e : tk o = KOBrace -> block L b e -> gram L 9 [Group o b c] e
| g_array o b c es : tk o = KOBrack -> items L b es -> gram L 9 [Group o b c] (EArray es)
| g_defined d x : word "defined" d -> tk x = KName -> gram L 9 [Leaf d; Leaf x] (EDefined (tx x))
| g_defined_paren d o x c :
    word "defined" d -> tk o = KOParen -> tk x = KName -> gram L 9 [Leaf d; Group o [Leaf x] c] (EDefined (tx x))
| g_times n xs z e : tk n = KNum -> num_value (tx n) = Ret z -> gram L 9 xs e -> gram L 9 (Leaf n :: xs) (ERepeat z e)
| g_repeat w xs e : word "repeat" w -> gram L 9 xs e -> gram L 9 (Leaf w :: xs) (ERepeat (-1) e)
| g_incr p x junk : tk p = KIncr -> tk x = KName -> free all_ops junk -> gram L 9 (Leaf p :: Leaf x :: junk) (EIncr (tx x) 1)
| g_decr p x junk : tk p = KDecr -> tk x = KName -> free all_ops junk -> gram L 9 (Leaf p :: Leaf x :: junk) (EIncr (tx x) (-1))
| g_echo w x junk : word "echo" w -> tk x = KString -> free all_ops junk ->
    gram L 9 (Leaf w :: Leaf x :: junk) (EString (tx x) true true false false)
| g_save w x junk : word "save" w -> tk x = KName -> free all_ops junk -> gram L 9 (Leaf w :: Leaf x :: junk) (ESave (tx x))
| g_reverse p xs e : tk p = KReverse -> gram L 9 xs e -> gram L 9 (Leaf p :: xs) (EReverse e)
| g_not p xs e : tk p = KNot -> gram L 9 xs e -> gram L 9 (Leaf p :: xs) (ENot e)
| g_call f o b c es :
    tk f = KName -> tk o = KOParen -> ~ word "repeat" f -> ~ word "echo" f -> ~ word "save" f ->
    ~ (word "defined" f /\ exists x, b = [Leaf x] /\ tk x = KName) ->
    args L b es -> gram L 9 [Leaf f; Group o b c] (ECall (tx f) es)
| g_string s : tk s = KString -> gram L 9 [Leaf s] (EString (tx s) true false false false)
| g_word w e : tk w = KName -> word_node (tx w) e -> gram L 9 [Leaf w] e
| g_pn s e : tk s = KPn -> l_pn L (tx s) = Ret e -> gram L 9 [Leaf s] e
| g_transp s e : tk s = KTransp -> l_transp L (tx s) = Ret e -> gram L 9 [Leaf s] e
| g_regex s e : tk s = KRegex -> l_regex L (tx s) = Ret e -> gram L 9 [Leaf s] e
| g_num s z : tk s = KNum -> num_value (tx s) = Ret z -> gram L 9 [Leaf s] (EInt z)
(* nothing, or a phrase *)
with maybe (L : lits) : list tree -> expr -> Prop :=
| m_none : maybe L [] ENop
| m_some xs e : gram L 0 xs e -> maybe L xs e
(* an alternative: a test, a colon and what to do; a test that always succeeds if there is no colon *)
with alt (L : lits) : list tree -> expr -> expr -> Prop :=
| alt_test xs c ys t e : free [KColon] xs -> tk c = KColon -> gram L 0 xs t -> maybe L ys e -> alt L (xs ++ Leaf c :: ys) t e
| alt_always xs t e : free [KColon] xs -> l_regex L (str "*") = Ret t -> maybe L xs e -> alt L xs t e
(* a block: the first alternative is there even if it is empty *)
with block (L : lits) : list tree -> expr -> Prop :=
| b_one xs t e : free [KSemi] xs -> alt L xs t e -> block L xs (EIf t e None)
| b_more xs s ys t e o : free [KSemi] xs -> tk s = KSemi -> alt L xs t e -> rest L ys o -> block L (xs ++ Leaf s :: ys) (EIf t e o)
(* the rest of a block: empty alternatives are passed over *)
with rest (L : lits) : list tree -> option expr -> Prop :=
| r_none : rest L [] None
| r_empty s ys o : tk s = KSemi -> rest L ys o -> rest L (Leaf s :: ys) o
| r_one xs t e : xs <> [] -> free [KSemi] xs -> alt L xs t e -> rest L xs (Some (EIf t e None))
| r_more xs s ys t e o : xs <> [] -> free [KSemi] xs -> tk s = KSemi -> alt L xs t e -> rest L ys o ->
    rest L (xs ++ Leaf s :: ys) (Some (EIf t e o))
(* the elements of an array: a comma is allowed after the last *)
with items (L : lits) : list tree -> list expr -> Prop :=
| i_none : items L [] []
| i_one xs e : free [KComma] xs -> gram L 0 xs e -> items L xs [e]
| i_more xs c ys e es : free [KComma] xs -> tk c = KComma -> gram L 0 xs e -> items L ys es -> items L (xs ++ Leaf c :: ys) (e :: es)
(* the arguments of a function *)
with args (L : lits) : list tree -> list expr -> Prop :=
| a_none : args L [] []
| a_some xs es : args1 L xs es -> args L xs es
with args1 (L : lits) : list tree -> list expr -> Prop :=
| a_one xs e : free [KComma] xs -> gram L 0 xs e -> args1 L xs [e]
| a_more xs c ys e es : free [KComma] xs -> tk c = KComma -> gram L 0 xs e -> args1 L ys es -> args1 L (xs ++ Leaf c :: ys) (e :: es).

(* The tokens that let anything follow them. *)
Definition lax (t : token) : Prop := tk t = KIncr \/ tk t = KDecr \/ word "echo" t \/ word "save" t.

(* The expressions there is a way of writing: those made of what the tokens stand for. *)
Definition symbol_name (s : text) : Prop := word_node s (ESym s).
Inductive writable (L : lits) : expr -> Prop :=
| w_bin op n x y e : 1 <= n <= 8 -> In op (ops n) -> op_node op x y e -> writable L x -> writable L y -> writable L e
| w_assign s e : writable L e -> writable L (EAssign s e)
| w_assign_nothing s : writable L (EAssign s ENop)
| w_append_assign s e : writable L e -> writable L (EAppendAssign s e)
| w_imm_assign s e : writable L e -> writable L (EImmAssign s e)
| w_if t e o : writable_else L (Some (EIf t e o)) -> writable L (EIf t e o)
| w_array es : writables L es -> writable L (EArray es)
| w_defined s : writable L (EDefined s)
| w_repeat z e : (-1 <= z < 2147483648)%Z -> writable L e -> writable L (ERepeat z e)
| w_incr s : writable L (EIncr s 1)
| w_decr s : writable L (EIncr s (-1))
| w_echo s : writable L (EString s true true false false)
| w_save s : writable L (ESave s)
| w_reverse e : writable L e -> writable L (EReverse e)
| w_not e : writable L e -> writable L (ENot e)
| w_call f es : ~ In f (map str ["repeat"; "echo"; "save"]%string) -> writables L es -> writable L (ECall f es)
| w_string s : writable L (EString s true false false false)
| w_word s e : word_node s e -> writable L e
| w_pn s e : l_pn L s = Ret e -> writable L e
| w_transp s e : l_transp L s = Ret e -> writable L e
| w_regex s e : l_regex L s = Ret e -> writable L e
| w_num z : (0 <= z < 2147483648)%Z -> writable L (EInt z)
with writable_else (L : lits) : option expr -> Prop :=
| we_none : writable_else L None
| we_some t e o : writable L t -> writable L e -> writable_else L o -> writable_else L (Some (EIf t e o))
| we_nothing t o : writable L t -> writable_else L o -> writable_else L (Some (EIf t ENop o))
with writables (L : lits) : list expr -> Prop :=
| ws_nil : writables L []
| ws_cons e es : writable L e -> writables L es -> writables L (e :: es).
