(** C62: the getters of the nodes and the functions [with_...]. Specification vocabulary: AccessSpec.v (which getter belongs to which
    function), TreeSpec.v (what is printed, which trees are of the Rust types). *)
From Verif Require Import PunctuatedProofs LexerSpec.
From Verif Require Import TreeFacts PrintProofs PropertiesConstruct.
From Coq Require Import Lia Permutation.
From Verif Require Import RoundSpec ConstructSpec TreeSpec Access AccessSpec Access1.
Local Open Scope nat_scope.
Import ListNotations.

(** ** C62. Every getter returns something for every node of its struct, and there is a function [with_...] for it; every function
    [with_...] belongs to a getter. *)
Theorem C62_total : forall g t, In g getters -> of_struct g t -> exists v, get g t = Some v.
Proof. exact get_total. Qed.
Print Assumptions C62_total.
Theorem C62_settable : forall g, In g getters -> exists s, In s setters /\ belongs s g.
Proof. intros g I. exact (proj2 (getter_facts g I)). Qed.
Print Assumptions C62_settable.
Theorem C62_gettable : forall s, In s setters -> exists g, In g getters /\ belongs s g.
Proof. intros s I. exact (proj1 (proj2 (proj2 (setter_facts s I)))). Qed.
Print Assumptions C62_gettable.

(** A getter returns the field it is named for, or that component of it. *)
Theorem C62_named : forall g, In g getters -> (exists n f, nth_error (declared (ac_kind g)) n = Some f /\ stands_for g f) /\
  forall n f cs x, nth_error (declared (ac_kind g)) n = Some f -> stands_for g f -> nth_error cs n = Some x ->
    (plain g -> get g (Nd (ac_kind g) cs) = Some x) /\
    (x = Con CNone [] -> get g (Nd (ac_kind g) cs) = Some (Con CNone [])) /\
    (forall a b, x = Con CSome [Con CTuple [a; b]] -> (first_of_pair g -> get g (Nd (ac_kind g) cs) = Some (Con CSome [a])) /\ (second_of_pair g -> get g (Nd (ac_kind g) cs) = Some (Con CSome [b]))).
Proof. exact got_named. Qed.
Print Assumptions C62_named.

(** What is set is what is got after it (of an optional pair: its components), and nothing else that can be got changes. *)
Theorem C62_get_set : forall s g v t, In s setters -> In g getters -> belongs s g -> of_struct s t -> plain g -> get g (set s v t) = Some v.
Proof. intros s g v t I J B O W. destruct (plain_whole g J W) as (n & E). rewrite (get_set s g v t I J B O), E. reflexivity. Qed.
Print Assumptions C62_get_set.
Theorem C62_get_set_pair : forall s g a b t, In s setters -> In g getters -> belongs s g -> of_struct s t ->
  (first_of_pair g -> get g (set s (Con CSome [Con CTuple [a; b]]) t) = Some (Con CSome [a])) /\
  (second_of_pair g -> get g (set s (Con CSome [Con CTuple [a; b]]) t) = Some (Con CSome [b])) /\ get g (set s (Con CNone []) t) = Some (Con CNone []).
Proof. exact pair_set. Qed.
Print Assumptions C62_get_set_pair.
Theorem C62_get_other : forall s g v t, In s setters -> In g getters -> ac_kind s = ac_kind g -> ~ belongs s g -> get g (set s v t) = get g t.
Proof. exact get_other. Qed.
Print Assumptions C62_get_other.

(** Setting what was got changes nothing, the last of two settings counts, and a node stays a node of its struct if the value is of the
    type of the field. *)
Theorem C62_set_get : forall s g v t, In s setters -> In g getters -> belongs s g -> plain g -> get g t = Some v -> set s v t = t.
Proof. intros s g v t I J B P. destruct (plain_whole g J P) as (n & E). exact (set_get s g v t n I J B E). Qed.
Print Assumptions C62_set_get.
Theorem C62_set_set : forall s v w t, set s v (set s w t) = set s v t.
Proof. exact set_set. Qed.
Print Assumptions C62_set_set.
Theorem C62_typed : forall s v t y, In s setters -> of_struct s t -> nth_error (fields (ac_kind s)) (part_field (ac_part s)) = Some y -> has_ty v y -> of_struct s (set s v t).
Proof. exact set_typed. Qed.
Print Assumptions C62_typed.

(** The getters of a node together return everything that the node prints, each token once. *)
Theorem C62_reach : forall k cs, (exists g, In g getters /\ ac_kind g = k) -> well_typed (Nd k cs) -> fitting_node k cs = true ->
  Permutation (flat_map (shown (Nd k cs)) (getters_of k)) (printed (Nd k cs)).
Proof. exact reach. Qed.
Print Assumptions C62_reach.

(** [Block::stmts] and [last_stmt] leave the semicolons out, [InterpolatedString::expressions] returns the expressions of the segments in
    their order, and the token of an operator is all that the operator prints. *)
Theorem C62_stmts : forall t, has_ty t (YNode NBlock) -> exists l o, t = Nd KBlock [Con CVec (map (fun x => Con CTuple [fst x; snd x]) l); o] /\ block_stmts_get t = map fst l /\
  (o = Con CNone [] /\ block_last_stmt_get t = None \/ exists s e, o = Con CSome [Con CTuple [s; e]] /\ block_last_stmt_get t = Some s).
Proof. intros t H. destruct (block_form t H) as (l & o & -> & D). exists l, o. split; [reflexivity|]. split; [apply stmts_got|]. destruct D as [->|(s & e & ->)]; [now left|right; now exists s, e]. Qed.
Print Assumptions C62_stmts.
Theorem C62_expressions : forall l z, expressions (Nd KInterpolatedString [Con CVec (map (fun x => Nd KInterpolatedStringSegment [fst x; snd x]) l); z]) = map snd l.
Proof. exact expressions_got. Qed.
Print Assumptions C62_expressions.
Theorem C62_operator : forall t, has_ty t (YNode NBinOp) \/ has_ty t (YNode NUnOp) \/ has_ty t (YNode NCompoundOp) -> exists r, operator_token t = Some r /\ printed t = [r].
Proof. exact operator_got. Qed.
Print Assumptions C62_operator.

(** *** Examples *)
Definition example_for : tree := value (numeric_for_new no_features (word_token (str "i")) (number_expression (str "1")) (number_expression (str "2"))).
Definition start_of : accessor := acc KNumericFor (str "start") (Whole 3).
Definition with_start : accessor := acc KNumericFor (str "with_start") (Whole 3).
Definition end_of : accessor := acc KNumericFor (str "end") (Whole 5).
Ltac present := vm_compute; repeat (first [left; reflexivity|right]).
Example C62_example : In start_of getters /\ In end_of getters /\ In with_start setters /\ belongs with_start start_of /\ plain start_of /\ (nth_error (declared KNumericFor) 3 = Some (str "start") /\ stands_for start_of (str "start")) /\ ~ belongs with_start end_of /\ of_struct with_start example_for /\
  get start_of (set with_start (name_expression (str "x")) example_for) = Some (name_expression (str "x")) /\ get end_of (set with_start (name_expression (str "x")) example_for) = Some (number_expression (str "2")) /\
  set with_start (number_expression (str "1")) example_for = example_for /\ display (set with_start (name_expression (str "x")) example_for) = str "for i = x, 2 do" ++ nl ++ nl ++ str "end".
Proof.
  split; [present|]. split; [present|]. split; [present|]. split; [split; [reflexivity|left; reflexivity]|]. split; [split; (intros [H|[H|[]]]; discriminate H)|]. split; [split; [reflexivity|now left]|]. split.
  { intros [_ [H|H]]; [vm_compute in H; discriminate H|]. cbn [renamed In ac_kind with_start] in H. repeat (destruct H as [H|H]; [discriminate H|]). exact H. }
  split. { split; [exists (YNode NNumericFor); vm_compute; reflexivity|eexists; vm_compute; reflexivity]. }
  repeat split; vm_compute; reflexivity.
Qed.
Example C62_example_reach : well_typed example_for /\ fitting example_for = true /\ List.length (getters_of KNumericFor) = 12 /\ List.length (printed example_for) = 8.
Proof. split; [exists (YNode NNumericFor); vm_compute; reflexivity|]. repeat split; vm_compute; reflexivity. Qed.
Definition method_name_of : accessor := acc KFunctionName (str "method_name") (Right 1).
Definition with_method : accessor := acc KFunctionName (str "with_method") (Whole 1).
Definition example_name : tree := function_name_new (listing (join comma [Tok (word_token (str "a"))])).
Example C62_example_pair : In method_name_of getters /\ In with_method setters /\ belongs with_method method_name_of /\ second_of_pair method_name_of /\ of_struct with_method example_name /\
  get method_name_of (set with_method (Con CSome [Con CTuple [Tok (plain_token (TSymbol SColon)); Tok (word_token (str "m"))]]) example_name) = Some (Con CSome [Tok (word_token (str "m"))]).
Proof.
  split; [present|]. split; [present|]. split; [split; [reflexivity|right; present]|]. split; [left; reflexivity|]. split; [split; [exists (YNode NFunctionName); vm_compute; reflexivity|eexists; vm_compute; reflexivity]|]. vm_compute. reflexivity.
Qed.
Example C62_example_parts : wt example_program (YNode NBlock) = true /\ List.length (block_stmts_get example_program) = 2 /\ block_last_stmt_get example_program = Some (returning example_table) /\
  expressions (Nd KInterpolatedString [vector [Nd KInterpolatedStringSegment [Tok (word_token (str "l")); name_expression (str "x")]; Nd KInterpolatedStringSegment [Tok (word_token (str "m")); name_expression (str "y")]]; Tok (word_token (str "z"))]) =
    [name_expression (str "x"); name_expression (str "y")].
Proof. repeat split; vm_compute; reflexivity. Qed.
