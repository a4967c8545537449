(** Model of the recursive-descent parser, full-moon/src/ast/parsers.rs.

    - A Rust function with the argument [state: &mut ParserState] is a value of [M]; [Result<T, ()>] is [option].
    - The functions call each other recursively. Every cycle of calls goes through one of the six functions in the
      record [parsers]; the definitions below take them as an argument [p], and [parsers_at] ties the knot on fuel.
    - [match token.token_type()] is written as a chain of tests in the order of the arms.
    - A field that exists only under a cargo feature is always present (see Tree.v). A vector of optional type
      specifiers or attributes that does not exist has one [None] for every name.
    - [debug_assert!] panics when it fails (it does so in debug builds). *)
From Verif Require Export ParserState.
Local Open Scope nat_scope.

(** The recursive functions: [parse_block], [parse_expression], [parse_primary_expression],
    [parse_expression_with_precedence], [parse_type], [parse_type_or_pack]. *)
Record parsers := mkParsers {
  p_block : M (pres tree);
  p_expression : M (pres tree);
  p_primary : M (pres tree);
  p_precedence : tree -> nat -> M (pres tree);
  p_type : M (pres tree);
  p_type_or_pack : M (pres tree) }.

(** ** Values built without parsing *)

(** [Position::default()] and [Token::new], tokenizer/structs.rs:437-444, 852-858. *)
Definition token_new (t : token_type) : token := mkToken (mkPos 0 0 0) (mkPos 0 0 0) t.
(** [error_token], parsers.rs:25-36. *)
Definition error_token : tokref := mkRef [] (token_new (TIdentifier (str "%error-id%"))) [].
(** [Block::new], mod.rs:67-72. *)
Definition block_new : tree := Nd KBlock [vec []; Con CNone []].
(** [FunctionArgs::empty], mod.rs:576-585. *)
Definition function_args_empty (c : cfg) : M tree :=
  let! a := basic c (str "(") in let! b := basic c (str ")") in
  ret (Nd KArgsParentheses [span a b; puncts p_new]).
(** [FunctionBody::new], mod.rs:1439-1459. *)
Definition function_body_new (c : cfg) : M tree :=
  let! a := basic c (str "(") in let! b := basic c (str ")") in let! e := basic c (c_nl :: str "end") in
  ret (Nd KFunctionBody [Con CNone []; span a b; puncts p_new; vec []; Con CNone []; block_new; Tok e]).
(** [If::new(condition).with_else_if(else_if)], mod.rs:1002-1013, 1059-1061. *)
Definition if_new (c : cfg) (condition : tree) (else_if : option tree) : M tree :=
  let! i := basic c (str "if ") in let! t := basic c (str " then") in let! e := basic c (c_nl :: str "end") in
  ret (Nd KIf [Tok i; condition; Tok t; block_new; opt_tree else_if; Con CNone []; Con CNone []; Tok e]).
(** [While::new], mod.rs:1178-1186. *)
Definition while_new (c : cfg) (condition : tree) : M tree :=
  let! w := basic c (str "while ") in let! d := basic c (str " do" ++ [c_nl]) in let! e := basic c (str "end" ++ [c_nl]) in
  ret (Nd KWhile [Tok w; condition; Tok d; block_new; Tok e]).
(** [Stmt::Do(Do::new().with_block(block))], mod.rs:1981-1987, 2009-2011. *)
Definition do_with_block (c : cfg) (block : tree) : M tree :=
  let! d := basic c (str "do" ++ [c_nl]) in let! e := basic c (c_nl :: str "end") in
  ret (Nd KStmtDo [Nd KDo [Tok d; block; Tok e]]).

(** ** Names and lists *)

(** [Name], parsers.rs:3502-3509. *)
Record name := mkName { n_name : tokref; n_attribute : option tree; n_type_specifier : option tree }.
(** [force_name], parsers.rs:3557-3565. *)
Definition force_name (r : tokref) : name := mkName r None None.

(** [parse_name], parsers.rs:3512-3525. *)
Definition parse_name : M (pres name) :=
  let! o := current in
  match o with
  | None => ret NotFound
  | Some t => if is_identifier t then let! t := take in ret (Value (force_name t)) else ret NotFound
  end.

(** [expect_type_specifier], parsers.rs:3234-3247. *)
Definition expect_type_specifier (p : parsers) (punctuation : tokref) : M (option tree) :=
  let! r := p_type p in
  match r with
  | Value t => ret (Some (Nd KTypeSpecifier [Tok punctuation; t]))
  | _ => token_error punctuation (str "expected type info after `:`") ;; ret None
  end.

(** [force_name_with_type_specifiers], parsers.rs:3645-3674 (both cfg variants). *)
Definition force_name_with_type_specifiers (c : cfg) (p : parsers) (r : tokref) : M name :=
  if has_luau c then
    let! o := consume_if SColon in
    match o with
    | Some punctuation =>
        let! ts := expect_type_specifier p punctuation in
        ret (mkName r None ts)
    | None => ret (force_name r)
    end
  else ret (force_name r).

(** [force_name_with_attributes], parsers.rs:3568-3642, 3677-3679 (both cfg variants). *)
Definition force_name_with_attributes (c : cfg) (p : parsers) (r : tokref) : M name :=
  if negb (has_lua54 c) && negb (has_cfxlua c) then force_name_with_type_specifiers c p r
  else
    let! o := consume_if SLessThan in
    match o with
    | Some left_angle_bracket =>
        let! o := current in
        match o with
        | Some t =>
            if is_identifier t then
              let! attribute_name := take in
              let! o := require SGreaterThan (str "expected `>` to close attribute") in
              match o with
              | Some right_angle_bracket =>
                  ret (mkName r (Some (Nd KAttribute [span left_angle_bracket right_angle_bracket; Tok attribute_name])) None)
              | None =>
                  let! right_angle_bracket := basic c (str ">") in
                  ret (mkName r (Some (Nd KAttribute [span left_angle_bracket right_angle_bracket; Tok attribute_name])) None)
              end
            else
              token_error_ranged t (str "expected identifier after `<` for attribute") left_angle_bracket t ;;
              ret (mkName r None None)
        | None =>
            token_error left_angle_bracket (str "expected identifier after `<` for attribute") ;;
            ret (mkName r None None)
        end
    | None => force_name_with_type_specifiers c p r
    end.

(** [parse_name_with_attributes], parsers.rs:3527-3540. *)
Definition parse_name_with_attributes (c : cfg) (p : parsers) : M (pres name) :=
  let! o := current in
  match o with
  | None => ret NotFound
  | Some t =>
      if is_identifier t then let! t := take in let! n := force_name_with_attributes c p t in ret (Value n) else ret NotFound
  end.

(** [parse_name_with_type_specifiers], parsers.rs:3542-3555. *)
Definition parse_name_with_type_specifiers (c : cfg) (p : parsers) : M (pres name) :=
  let! o := current in
  match o with
  | None => ret NotFound
  | Some t =>
      if is_identifier t then let! t := take in let! n := force_name_with_type_specifiers c p t in ret (Value n) else ret NotFound
  end.

(** [one_or_more], parsers.rs:3709-3750. *)
Definition one_or_more {A} (parser : M (pres A)) (delimiter : symbol) : M (pres (punctuated A)) :=
  let! values := loop (fun values =>
    let! r := parser in
    match r with
    | Value v =>
        let! o := consume_if delimiter in
        match o with
        | Some d => ret (inl (p_push values (Punctuated v d)))
        | None => ret (inr (p_push values (End v)))
        end
    | _ => ret (inr values)
    end) p_new in
  if p_is_empty values then ret NotFound
  else match p_pop values with
       | (Some (Punctuated v q), rest) =>
           token_error q (str "trailing commas are not allowed") ;; ret (Value (p_push rest (End v)))
       | _ => ret (Value values)
       end.

(** [parse_name_list] and [parse_expression_list], parsers.rs:3752-3758. *)
Definition parse_name_list (c : cfg) (p : parsers) : M (pres (punctuated name)) := one_or_more (parse_name_with_type_specifiers c p) SComma.
Definition parse_expression_list (p : parsers) : M (pres (punctuated tree)) := one_or_more (p_expression p) SComma.

(** ** Types (Luau) *)

(** [parse_type_pack], parsers.rs:2593-2626. *)
Definition parse_type_pack (p : parsers) : M (pres tree) :=
  let! o := current in
  match o with
  | None => ret NotFound
  | Some t =>
      if is_symbol t SEllipsis then
        let! ellipsis := take in
        let! r := p_type p in
        match r with
        | Value ty => ret (Value (Nd KTypeVariadic [Tok ellipsis; ty]))
        | _ => ret LexerMoved
        end
      else
        let! pack := (if is_identifier t then let! q := peek in ret (is_sym q SEllipsis) else ret false) in
        if pack then
          let! r := parse_name in
          let! n := unwrap r in
          let! o := require SEllipsis (str "expected `...` after type name") in
          match o with
          | Some ellipsis => ret (Value (Nd KTypeGenericPack [Tok (n_name n); Tok ellipsis]))
          | None => panic
          end
        else ret NotFound
  end.

(** [parse_return_type], parsers.rs:3250-3257. *)
Definition parse_return_type (p : parsers) : M (pres tree) :=
  let! r := parse_type_pack p in
  match r with
  | Value t => ret (Value t)
  | NotFound => p_type_or_pack p
  | LexerMoved => ret LexerMoved
  end.

(** [expect_generic_type_params], parsers.rs:3427-3473; the pair of [arrows] and [generics]. *)
Definition expect_generic_type_params (p : parsers) (left_arrow : tokref) : M (option (tree * tree)) :=
  let! r := loop (fun generics =>
    let! o := current in
    match o with
    | None => ret (inr None)
    | Some t =>
        if is_symbol t SGreaterThan then ret (inr (Some generics))
        else
          let! r := parse_type_pack p in
          let! r := match r with NotFound => p_type_or_pack p | r => ret r end in
          match r with
          | Value type_info =>
              let! o := consume_if SComma in
              match o with
              | Some punctuation =>
                  let! o := current in
                  match o with
                  | None => ret (inr None)
                  | Some t =>
                      if is_symbol t SGreaterThan then
                        token_error t (str "expected type after ',' but got '>' instead") ;;
                        ret (inr (Some (p_push generics (Punctuated type_info punctuation))))
                      else ret (inl (p_push generics (Punctuated type_info punctuation)))
                  end
              | None => ret (inr (Some (p_push generics (End type_info))))
              end
          | _ => ret (inr None)
          end
    end) p_new in
  match r with
  | None => ret None
  | Some generics =>
      let! o := require SGreaterThan (str "expected '>' to close generic type parameter list") in
      match o with
      | None => ret None
      | Some right_arrow => ret (Some (span left_arrow right_arrow, puncts generics))
      end
  end.

(** [TypeListStyle], parsers.rs:3259-3264. *)
Inductive list_style := Plain | WithDefaults.
Definition with_defaults (y : list_style) : bool := match y with WithDefaults => true | Plain => false end.

(** [matches!(type_info, ast::TypeInfo::Tuple { .. })] *)
Definition is_tuple (t : tree) : bool := match t with Nd KTypeTuple _ => true | _ => false end.

(** The part of [parse_generic_type_list] that runs when no default follows, parsers.rs:3343-3351, 3370-3377. *)
Definition missing_default (seen_default : bool) : M unit :=
  if seen_default then
    let! o := current in
    match o with
    | Some t => token_error t (str "expected default type after type name")
    | None => panic
    end
  else ret tt.

(** [parse_generic_type_list], parsers.rs:3267-3418. *)
Definition parse_generic_type_list (c : cfg) (p : parsers) (style : list_style) : M (pres tree) :=
  if negb (has_luau c) then ret NotFound
  else
    let! o := consume_if SLessThan in
    match o with
    | None => ret NotFound
    | Some left_angle_bracket =>
        let! r := loop (fun '(generics, seen_pack, seen_default) =>
          let! o := current in
          match o with
          | None => ret (inr LexerMoved)
          | Some t =>
              let! name := (if is_identifier t then take
                            else token_error t (str "expected a generic type name") ;; ret error_token) in
              let! o := current in
              match o with
              | None => ret (inr NotFound)
              | Some t =>
                  (* None is [return LexerMoved] *)
                  let! r :=
                    (if seen_pack || is_symbol t SEllipsis then
                       let! o := consume_if SEllipsis in
                       let! ellipsis := (match o with
                                         | Some e => ret e
                                         | None => token_error name (str "generic types come before generic type packs") ;; basic c (str "...")
                                         end) in
                       let parameter := Nd KGenericParamVariadic [Tok name; Tok ellipsis] in
                       let! q := (if with_defaults style then let! o := current in ret (is_sym o SEqual) else ret false) in
                       if q then
                         let! equal_token := take in
                         let! r := parse_type_pack p in
                         match r with
                         | Value ty => ret (Some (parameter, Some (equal_token, ty), true, true))
                         | NotFound =>
                             let! r := p_type_or_pack p in
                             match r with
                             | Value ty =>
                                 if is_tuple ty then ret (Some (parameter, Some (equal_token, ty), true, true))
                                 else
                                   let! a := first_token ty in
                                   let! b := last_token ty in
                                   token_error_ranged equal_token (str "expected type pack after `=` but got type instead") a b ;;
                                   ret (Some (parameter, Some (equal_token, ty), true, true))
                             | _ => ret None
                             end
                         | LexerMoved => ret None
                         end
                       else
                         missing_default seen_default ;;
                         ret (Some (parameter, None, true, seen_default))
                     else
                       let parameter := Nd KGenericParamName [Tok name] in
                       let! q := (if with_defaults style then let! o := current in ret (is_sym o SEqual) else ret false) in
                       if q then
                         let! equal_token := take in
                         let! r := p_type p in
                         match r with
                         | Value ty => ret (Some (parameter, Some (equal_token, ty), seen_pack, true))
                         | _ => ret None
                         end
                       else
                         missing_default seen_default ;;
                         ret (Some (parameter, None, seen_pack, seen_default))) in
                  match r with
                  | None => ret (inr LexerMoved)
                  | Some (parameter, default, seen_pack, seen_default) =>
                      let item := Nd KGenericDeclarationParameter
                                    [parameter; opt_tree (option_map (fun d : tokref * tree => Con CTuple [Tok (fst d); snd d]) default)] in
                      let! o := current in
                      match o with
                      | None => ret (inr LexerMoved)
                      | Some t =>
                          if is_symbol t SComma then
                            let! punctuation := take in
                            let! o := current in
                            (match o with
                             | Some t => if is_symbol t SGreaterThan then token_error t (str "expected type after `,` but got `>` instead") else ret tt
                             | None => ret tt
                             end) ;;
                            ret (inl (p_push generics (Punctuated item punctuation), seen_pack, seen_default))
                          else ret (inr (Value (p_push generics (End item))))
                      end
                  end
              end
          end) (p_new, false, false) in
        match r with
        | LexerMoved => ret LexerMoved
        | NotFound => ret NotFound
        | Value generics =>
            let! o := require SGreaterThan (str "expected `>` to close generic list") in
            let! right_angle_bracket := match o with Some r => ret r | None => basic c (str ">") end in
            ret (Value (Nd KGenericDeclaration [span left_angle_bracket right_angle_bracket; puncts generics]))
        end
    end.

(** [SimpleTypeStyle], parsers.rs:2628-2633. *)
Inductive type_style := Default | AllowPack.
Definition allow_pack (y : type_style) : bool := match y with AllowPack => true | Default => false end.

(** [TypeArgument { name, type_info }] *)
Record type_argument := mkArg { ta_name : option (tokref * tokref); ta_type : tree }.
Definition arg_tree (a : type_argument) : tree :=
  Nd KTypeArgument [opt_tree (option_map (fun n : tokref * tokref => Con CTuple [Tok (fst n); Tok (snd n)]) (ta_name a)); ta_type a].
Definition is_variadic (t : tree) : bool := match t with Nd KTypeVariadic _ => true | _ => false end.

(** [expect_function_type], parsers.rs:3109-3231. *)
Definition expect_function_type (c : cfg) (p : parsers) (style : type_style) : M (option tree) :=
  let! o := current in
  let force := is_sym o SLessThan in
  let! r := parse_generic_type_list c p Plain in
  match r with
  | LexerMoved => ret None
  | _ =>
      let generics := match r with Value g => Some g | _ => None end in
      let! o := require SLeftParen (str "expected `(`") in
      match o with
      | None => ret None
      | Some left_paren =>
          let! r := loop (fun arguments =>
            let! o := current in
            if is_sym o SRightParen then ret (inr (Some arguments))
            else
              let! r := parse_type_pack p in
              match r with
              | Value ty => ret (inr (Some (p_push arguments (End (mkArg None ty)))))
              | LexerMoved => ret (inr None)
              | NotFound =>
                  let! o := current in
                  match o with
                  | None => ret (inr None)
                  | Some t =>
                      let! named := (if is_identifier t then let! q := peek in ret (is_sym q SColon) else ret false) in
                      let! name := (if named then let! a := take in let! b := take in ret (Some (a, b)) else ret None) in
                      let! r := p_type p in
                      match r with
                      | Value ty =>
                          let argument := mkArg name ty in
                          let! o := current in
                          if is_sym o SComma then
                            let! punctuation := take in
                            let arguments := p_push arguments (Punctuated argument punctuation) in
                            let! o := current in
                            match o with
                            | Some t =>
                                if is_symbol t SRightParen then
                                  token_error t (str "expected type after `,` but got `)` instead") ;;
                                  ret (inr (Some arguments))
                                else ret (inl arguments)
                            | None => ret (inl arguments)
                            end
                          else ret (inr (Some (p_push arguments (End argument))))
                      | _ => ret (inr None)
                      end
                  end
              end) p_new in
          match r with
          | None => ret None
          | Some arguments =>
              let! o := require SRightParen (str "expected `)` to close `(`") in
              match o with
              | None => ret None
              | Some right_paren =>
                  let parentheses := span left_paren right_paren in
                  let force := force || existsb (fun a => match ta_name a with Some _ => true | None => false end) (p_iter arguments) in
                  let! tuple :=
                    (if force then ret false
                     else
                       let! o := current in
                       if is_sym o SThinArrow then ret false
                       else
                         let! single := (if Nat.eqb (p_len arguments) 1
                                         then match p_iter arguments with a :: _ => ret (negb (is_variadic (ta_type a))) | [] => panic end
                                         else ret false) in
                         ret (single || allow_pack style)) in
                  if tuple then
                    ret (Some (Nd KTypeTuple [parentheses; puncts (p_from_iter (map (pair_map ta_type) (p_pairs arguments)))]))
                  else
                    let! o := require SThinArrow (str "expected `->` after `()` for function type") in
                    match o with
                    | None => ret None
                    | Some arrow =>
                        let! r := parse_return_type p in
                        match r with
                        | Value return_type =>
                            ret (Some (Nd KTypeCallback [opt_tree generics; parentheses; punct arg_tree arguments; Tok arrow; return_type]))
                        | _ => ret None
                        end
                    end
              end
          end
      end
  end.

(** [state.token_error(state.current().unwrap().clone(), msg)] *)
Definition error_at_current (msg : text) : M unit :=
  let! o := current in
  match o with Some t => token_error t msg | None => panic end.

(** The end of the loop body of [expect_type_table], parsers.rs:3072-3086, and of [force_table_constructor], 1376-1390:
    push the field with its separator and go on ([inl]), or push it and leave the loop ([inr]). *)
Definition push_field {B} (fields : punctuated tree) (field : tree) (done : punctuated tree -> B) : M (punctuated tree + B) :=
  let! o := current in
  match o with
  | Some t =>
      if is_symbol t SComma || is_symbol t SSemicolon then
        let! q := take in ret (inl (p_push fields (Punctuated field q)))
      else ret (inr (done (p_push fields (End field))))
  | None => ret (inr (done (p_push fields (End field))))
  end.

(** [matches!(token.token().to_string().as_str(), "read" | "write")] for an identifier *)
Definition is_access (r : tokref) : bool :=
  match t_type (r_token r) with
  | TIdentifier w => text_eqb w (str "read") || text_eqb w (str "write")
  | _ => false
  end.

(** How the loop of [expect_type_table] ends. *)
Inductive table_end :=
| TableReturn (r : option tree)                                    (* [return] *)
| TableBreak (fields : punctuated tree) (array : option (option tokref * tree)).   (* [break] *)

(** [expect_type_table], parsers.rs:2904-3106. *)
Definition expect_type_table (c : cfg) (p : parsers) (left_brace : tokref) : M (option tree) :=
  let! r := loop (fun '(fields, has_indexer) =>
    let push (has_indexer : bool) (field : tree) :=
      (let! r := push_field fields field (fun fields => TableBreak fields None) in
       ret (match r with inl fields => inl (fields, has_indexer) | inr e => inr e end)) in
    let! o := current in
    let! access :=
      (if (match o with Some t => is_identifier t && is_access t | None => false end) then
         let! q := peek in
         if is_sym q SColon then ret None else let! t := take in ret (Some t)
       else ret None) in
    let! o := current in
    match o with
    | None => ret (inr (TableReturn None))
    | Some t =>
        if is_symbol t SRightBrace then
          let! right_brace := take in
          ret (inr (TableReturn (Some (Nd KTypeTable [span left_brace right_brace; puncts fields]))))
        else
          let! string_key :=
            (if is_symbol t SLeftBracket then
               let! q := peek in ret (match q with Some q => is_string q | None => false end)
             else ret false) in
          if string_key then
            let! left_bracket := take in
            let! property := take in
            let! o := require SRightBracket (str "expected `]` to close `[` for type table field") in
            match o with
            | None => ret (inr (TableReturn None))
            | Some right_bracket =>
                let! o := require SColon (str "expected `:` after type field key") in
                match o with
                | None => ret (inr (TableReturn None))
                | Some colon =>
                    let! r := p_type p in
                    match r with
                    | Value value =>
                        push has_indexer
                          (Nd KTypeField [opt_tok access; Nd KTypeFieldKeyIndexSignature [span left_bracket right_bracket; Nd KTypeString [Tok property]]; Tok colon; value])
                    | _ => error_at_current (str "expected type after type field key") ;; ret (inr (TableReturn None))
                    end
                end
            end
          else if is_symbol t SLeftBracket then
            let! left_bracket := take in
            let! r := p_type p in
            match r with
            | NotFound => error_at_current (str "expected type for type field key") ;; ret (inr (TableReturn None))
            | LexerMoved => ret (inr (TableReturn None))
            | Value key =>
                let! o := require SRightBracket (str "expected `]` to close `[` for type table field") in
                match o with
                | None => ret (inr (TableReturn None))
                | Some right_bracket =>
                    let! o := require SColon (str "expected `:` after type field key") in
                    match o with
                    | None => ret (inr (TableReturn None))
                    | Some colon =>
                        let! r := p_type p in
                        match r with
                        | NotFound => error_at_current (str "expected type after type field key") ;; ret (inr (TableReturn None))
                        | LexerMoved => ret (inr (TableReturn None))
                        | Value value =>
                            (if has_indexer then
                               let! b := last_token value in
                               token_error_ranged left_bracket (str "cannot have more than one table indexer") left_bracket b
                             else ret tt) ;;
                            push true
                              (Nd KTypeField [opt_tok access; Nd KTypeFieldKeyIndexSignature [span left_bracket right_bracket; key]; Tok colon; value])
                        end
                    end
                end
            end
          else
            let! array :=
              (if p_is_empty fields && negb has_indexer then
                 if is_identifier t then let! q := peek in ret (negb (is_sym q SColon)) else ret true
               else ret false) in
            if array then
              let! r := p_type p in
              match r with
              | Value value => ret (inr (TableBreak fields (Some (access, value))))
              | NotFound => error_at_current (str "expected type for table array") ;; ret (inr (TableReturn None))
              | LexerMoved => ret (inr (TableReturn None))
              end
            else
              let! r := parse_name in
              match r with
              | NotFound => ret (inr (TableBreak fields None))
              | LexerMoved => ret (inr (TableReturn None))
              | Value n =>
                  let! o := require SColon (str "expected `:` after type field key") in
                  match o with
                  | None => ret (inr (TableReturn None))
                  | Some colon =>
                      let! r := p_type p in
                      match r with
                      | NotFound => error_at_current (str "expected type after type field key") ;; ret (inr (TableReturn None))
                      | LexerMoved => ret (inr (TableReturn None))
                      | Value value =>
                          push has_indexer (Nd KTypeField [opt_tok access; Nd KTypeFieldKeyName [Tok (n_name n)]; Tok colon; value])
                      end
                  end
              end
    end) (p_new, false) in
  match r with
  | TableReturn r => ret r
  | TableBreak fields array =>
      let! o := require SRightBrace (str "expected `}` to close type table") in
      let! right_brace := match o with Some r => ret r | None => basic c (str "}") end in
      let braces := span left_brace right_brace in
      match array with
      | Some (access, type_info) => ret (Some (Nd KTypeArray [braces; opt_tok access; type_info]))
      | None => ret (Some (Nd KTypeTable [braces; puncts fields]))
      end
  end.

(** [parse_simple_type], parsers.rs:2636-2774. *)
Definition parse_simple_type (c : cfg) (p : parsers) (style : type_style) : M (pres tree) :=
  let! o := current in
  match o with
  | None => ret NotFound
  | Some t =>
      if is_symbol t SNil then let! t := take in ret (Value (Nd KTypeBasic [Tok t]))
      else if is_symbol t STrue || is_symbol t SFalse then let! t := take in ret (Value (Nd KTypeBoolean [Tok t]))
      else if is_string t then let! t := take in ret (Value (Nd KTypeString [Tok t]))
      else if is_interpolated t then
        let! t := take in
        token_error t (str "interpolated string literals cannot be used as types") ;; ret LexerMoved
      else if is_identifier t then
        let! name := take in
        if text_eqb (show_token (r_token name)) (str "typeof") then
          let! o := require SLeftParen (str "expected `(` after `typeof`") in
          let! left_parenthesis := match o with Some r => ret r | None => basic c (str "(") end in
          let! r := p_expression p in
          match r with
          | Value expression =>
              let! o := require_with_reference_token SRightParen (str "expected `)` to close typeof call") left_parenthesis in
              let! right_parenthesis := match o with Some r => ret r | None => basic c (str ")") end in
              ret (Value (Nd KTypeTypeof [Tok name; span left_parenthesis right_parenthesis; expression]))
          | _ => ret LexerMoved
          end
        else
          let! o := current in
          if is_sym o SDot then
            let! punctuation := take in
            let! r := parse_name in
            match r with
            | NotFound => error_at_current (str "expected identifier after `.`") ;; ret LexerMoved
            | LexerMoved => ret LexerMoved
            | Value n =>
                let! o := consume_if SLessThan in
                match o with
                | Some left_arrow =>
                    let! g := expect_generic_type_params p left_arrow in
                    match g with
                    | None => ret LexerMoved
                    | Some (arrows, generics) =>
                        ret (Value (Nd KTypeModule [Tok name; Tok punctuation; Nd KIndexedGeneric [Tok (n_name n); arrows; generics]]))
                    end
                | None => ret (Value (Nd KTypeModule [Tok name; Tok punctuation; Nd KIndexedBasic [Tok (n_name n)]]))
                end
            end
          else if is_sym o SLessThan then
            let! left_arrow := take in
            let! g := expect_generic_type_params p left_arrow in
            match g with
            | None => ret LexerMoved
            | Some (arrows, generics) => ret (Value (Nd KTypeGeneric [Tok name; arrows; generics]))
            end
          else ret (Value (Nd KTypeBasic [Tok name]))
      else if is_symbol t SLeftBrace then
        let! left_brace := take in
        let! r := expect_type_table c p left_brace in
        ret (match r with Some t => Value t | None => LexerMoved end)
      else if is_symbol t SLeftParen || is_symbol t SLessThan then
        let! r := expect_function_type c p style in
        ret (match r with Some t => Value t | None => LexerMoved end)
      else ret NotFound
  end.

(** [parse_type_suffix], parsers.rs:2777-2901. *)
Definition parse_type_suffix (c : cfg) (p : parsers) (simple_type : option tree) : M (pres tree) :=
  let! start :=
    (match simple_type with
     | Some _ => ret (None, false, false)
     | None =>
         let! o := current in
         match o with
         | None => panic
         | Some t =>
             if is_symbol t SPipe then let! t := take in ret (Some t, true, false)
             else if is_symbol t SAmpersand then let! t := take in ret (Some t, false, true)
             else panic
         end
     end) in
  let '(leading, is_union, is_intersection) := start in
  let! r := loop (A := punctuated tree * option tree * bool * bool) (fun '(types, current_type, is_union, is_intersection) =>
    let! r := match current_type with Some t => ret (Value t) | None => parse_simple_type c p Default end in
    match r with
    | Value type_info =>
        let! o := current in
        match o with
        | None => ret (inr (inr (p_push types (End type_info), is_union, is_intersection)))
        | Some t =>
            if is_symbol t SQuestionMark then
              if is_intersection then
                token_error t (str "cannot mix union and intersection types") ;; ret (inr (inl LexerMoved))
              else
                let! question_mark := take in
                ret (inl (types, Some (Nd KTypeOptional [type_info; Tok question_mark]), true, is_intersection))
            else if is_symbol t SPipe then
              if is_intersection then
                token_error t (str "cannot mix union and intersection types") ;; ret (inr (inl LexerMoved))
              else
                let! pipe := take in
                ret (inl (p_push types (pair_new type_info (Some pipe)), None, true, is_intersection))
            else if is_symbol t SAmpersand then
              if is_union then
                token_error t (str "cannot mix union and intersection types") ;; ret (inr (inl LexerMoved))
              else
                let! ampersand := take in
                ret (inl (p_push types (pair_new type_info (Some ampersand)), None, is_union, true))
            else if p_is_empty types && (match leading with None => true | Some _ => false end) then ret (inr (inl (Value type_info)))
            else ret (inr (inr (p_push types (End type_info), is_union, is_intersection)))
        end
    | _ => ret (inr (inl LexerMoved))
    end) (p_new, simple_type, is_union, is_intersection) in
  match r with
  | inl r => ret r
  | inr (types, true, false) => ret (Value (Nd KTypeUnionV [Nd KTypeUnion [opt_tok leading; puncts types]]))
  | inr (types, false, true) => ret (Value (Nd KTypeIntersectionV [Nd KTypeIntersection [opt_tok leading; puncts types]]))
  | inr _ => panic
  end.

(** [parse_type], parsers.rs:2555-2573. *)
Definition parse_type (c : cfg) (p : parsers) : M (pres tree) :=
  let! o := current in
  match o with
  | None => ret NotFound
  | Some t =>
      if is_symbol t SPipe || is_symbol t SAmpersand then parse_type_suffix c p None
      else
        let! r := parse_simple_type c p Default in
        match r with
        | Value simple_type => parse_type_suffix c p (Some simple_type)
        | _ => ret LexerMoved
        end
  end.

(** [parse_type_or_pack], parsers.rs:2576-2590. *)
Definition parse_type_or_pack (c : cfg) (p : parsers) : M (pres tree) :=
  let! r := parse_simple_type c p AllowPack in
  match r with
  | Value t =>
      match t with
      | Nd KTypeTuple [_; Con CPunctuated l] => if negb (Nat.eqb (List.length l) 1) then ret (Value t) else parse_type_suffix c p (Some t)
      | Nd KTypeVariadicPack _ | Nd KTypeGenericPack _ => panic
      | _ => parse_type_suffix c p (Some t)
      end
  | _ => ret LexerMoved
  end.

(** [expect_type_instantiation], parsers.rs:3682-3707. *)
Definition expect_type_instantiation (p : parsers) (outer_0 : tokref) : M (option tree) :=
  let! o := require SLessThan (str "expected second `<` in type instantiation") in
  match o with
  | None => ret None
  | Some inner_0 =>
      let! g := expect_generic_type_params p inner_0 in
      match g with
      | None => ret None
      | Some (arrows, generics) =>
          let! o := require SGreaterThan (str "expected second `>` in type instantiation") in
          match o with
          | None => ret None
          | Some outer_1 => ret (Some (Nd KTypeInstantiation [span outer_0 outer_1; arrows; generics]))
          end
      end
  end.

(** [parse_attributes], parsers.rs:3476-3500. *)
Definition parse_attributes : M (pres (list tree)) :=
  let! o := current in
  if negb (is_sym o SAtSign) then panic
  else
    loop (fun attributes =>
      let! o := consume_if SAtSign in
      match o with
      | None => ret (inr (Value attributes))
      | Some at_sign =>
          let! r := parse_name in
          match r with
          | Value n => ret (inl (attributes ++ [Nd KLuauAttribute [Tok at_sign; Tok (n_name n)]]))
          | NotFound => error_at_current (str "expected identifier after `@`") ;; ret (inr LexerMoved)
          | LexerMoved => ret (inr LexerMoved)
          end
      end) [].

(** ** Blocks and function bodies *)

(** [block.last_stmt()] and [block.stmts().last()], mod.rs:78-80, 89-91. *)
Definition block_last_stmt (b : tree) : option tree :=
  match b with Nd KBlock [_; Con CSome [Con CTuple (l :: _)]] => Some l | _ => None end.
Definition block_stmts (b : tree) : list tree := match b with Nd KBlock (Con CVec l :: _) => l | _ => [] end.
Definition block_last_of_stmts (b : tree) : option tree :=
  match rev (block_stmts b) with Con CTuple (x :: _) :: _ => Some x | _ => None end.

(** First and last token of a statement, parsers.rs:87-95: [tokens.next().unwrap()] and then
    [tokens.next_back().unwrap_or(start)]. *)
Definition ends_of (t : tree) : M (tokref * tokref) :=
  let! a := lift (tokens_next (items t)) in
  match fst a with
  | None => panic
  | Some start =>
      let! b := lift (tokens_next_back (snd a)) in
      ret (start, match fst b with Some e => e | None => start end)
  end.

(** [expect_block_with_end], parsers.rs:76-111. *)
Definition expect_block_with_end (c : cfg) (p : parsers) (name : text) (start_for_errors : tokref) : M (option (tree * tokref)) :=
  let! r := p_block p in
  match r with
  | NotFound => panic
  | LexerMoved => ret None
  | Value block =>
      let! se := (match block_last_stmt block with
                  | Some l => ends_of l
                  | None => match block_last_of_stmts block with
                            | Some l => ends_of l
                            | None => ret (start_for_errors, start_for_errors)
                            end
                  end) in
      let! o := require_with_reference_range SEnd (str "expected `end` to close " ++ name ++ str " block") (fst se) (snd se) in
      let! end_token := match o with Some e => ret e | None => basic c (str "end") end in
      ret (Some (block, end_token))
  end.

(** [Parameter] of a function body. *)
Definition param_ellipsis (r : tokref) : tree := Nd KParamEllipsis [Tok r].
Definition param_name (r : tokref) : tree := Nd KParamName [Tok r].

(** The closure [unfinished_function_body], parsers.rs:2207-2232. *)
Definition unfinished_function_body (c : cfg) (left_parenthesis : tokref) (parameters : punctuated tree) : M (pres tree) :=
  let parameters := match p_pop parameters with
                    | (Some (Punctuated v _), rest) => p_push rest (End v)
                    | _ => parameters
                    end in
  let! b := basic c (str ")") in
  let! e := basic c (str "end") in
  ret (Value (Nd KFunctionBody [Con CNone []; span left_parenthesis b; puncts parameters; vec []; Con CNone []; block_new; Tok e])).

(** The annotation of [...] in a parameter list, parsers.rs:2244-2277: [None] is the early return. *)
Definition ellipsis_specifier (p : parsers) : M (option (option tree)) :=
  let! o := consume_if SColon in
  match o with
  | None => ret (Some None)
  | Some colon =>
      let! o := current in
      let! pack := (if is_ident o then let! q := peek in ret (is_sym q SEllipsis) else ret false) in
      if pack then
        let! r := parse_name in
        let! n := unwrap r in
        let! o := require SEllipsis (str "expected `...` after type name") in
        match o with
        | Some ellipsis => ret (Some (Some (Nd KTypeSpecifier [Tok colon; Nd KTypeGenericPack [Tok (n_name n); Tok ellipsis]])))
        | None => panic
        end
      else
        let! r := p_type p in
        match r with
        | Value ty => ret (Some (Some (Nd KTypeSpecifier [Tok colon; ty])))
        | _ => ret None
        end
  end.

(** The parameter loop, parsers.rs:2234-2321. [inl]: [unfinished_function_body] was called with these parameters;
    [inr]: parameters, type specifiers and the right parenthesis. *)
Definition parameter_loop (c : cfg) (p : parsers) : M (punctuated tree + punctuated tree * list tree * tokref) :=
  loop (fun '(parameters, type_specifiers) =>
    let! o := current in
    match o with
    | None => ret (inr (inl parameters))
    | Some t =>
        if is_symbol t SRightParen then
          let! right_parenthesis := take in
          ret (inr (inr (parameters, type_specifiers, right_parenthesis)))
        else if is_symbol t SEllipsis then
          let! ellipsis := take in
          let parameters := p_push parameters (End (param_ellipsis ellipsis)) in
          let! ts := (if has_luau c then
                        let! o := ellipsis_specifier p in
                        ret (match o with Some ts => Some (type_specifiers ++ [opt_tree ts]) | None => None end)
                      else ret (Some type_specifiers)) in
          match ts with
          | None => ret (inr (inl parameters))
          | Some type_specifiers =>
              let! o := require SRightParen (str "expected a `)`") in
              match o with
              | Some right_parenthesis => ret (inr (inr (parameters, type_specifiers, right_parenthesis)))
              | None => ret (inr (inl parameters))
              end
          end
        else if is_identifier t then
          let! r := parse_name_with_type_specifiers c p in
          let! n := unwrap r in
          let type_specifiers := type_specifiers ++ [opt_tree (n_type_specifier n)] in
          let parameter := param_name (n_name n) in
          let! o := consume_if SComma in
          match o with
          | Some comma => ret (inl (p_push parameters (Punctuated parameter comma), type_specifiers))
          | None =>
              let parameters := p_push parameters (End parameter) in
              let! o := require SRightParen (str "expected a `)`") in
              match o with
              | Some right_parenthesis => ret (inr (inr (parameters, type_specifiers, right_parenthesis)))
              | None => ret (inr (inl parameters))
              end
          end
        else
          token_error t (str "expected a parameter name or `)`") ;; ret (inr (inl parameters))
    end) (p_new, []).

(** The return type of a function body, parsers.rs:2335-2369: [None] is [return LexerMoved]. *)
Definition body_return_type (c : cfg) (p : parsers) : M (option (option tree)) :=
  if has_luau c then
    let annotation (punctuation : tokref) : M (option (option tree)) :=
      (let! r := parse_return_type p in
       match r with
       | Value ty => ret (Some (Some (Nd KTypeSpecifier [Tok punctuation; ty])))
       | _ => ret None
       end) in
    let! o := consume_if SColon in
    match o with
    | Some punctuation => annotation punctuation
    | None =>
        let! o := consume_if SThinArrow in
        match o with
        | Some punctuation =>
            token_error punctuation (str "function return type annotations should use `:` instead of `->`") ;;
            annotation punctuation
        | None => ret (Some None)
        end
    end
  else ret (Some None).

(** [parse_function_body], parsers.rs:2189-2391. *)
Definition parse_function_body (c : cfg) (p : parsers) : M (pres tree) :=
  let! r := (if has_luau c then parse_generic_type_list c p Plain else ret NotFound) in
  match r with
  | LexerMoved => ret LexerMoved
  | _ =>
      let generics := match r with Value g => Some g | _ => None end in
      let! o := consume_if SLeftParen in
      match o with
      | None => ret NotFound
      | Some left_parenthesis =>
          let! r := parameter_loop c p in
          match r with
          | inl parameters => unfinished_function_body c left_parenthesis parameters
          | inr (parameters, type_specifiers, right_parenthesis) =>
              let! parameters :=
                (match p_pop parameters with
                 | (Some (Punctuated v q), rest) =>
                     token_error q (str "trailing commas in arguments are not allowed") ;; ret (p_push rest (End v))
                 | _ => ret parameters
                 end) in
              let! rt := body_return_type c p in
              match rt with
              | None => ret LexerMoved
              | Some return_type =>
                  let! r := expect_block_with_end c p (str "function body") right_parenthesis in
                  match r with
                  | None => ret LexerMoved
                  | Some (block, e) =>
                      ret (Value (Nd KFunctionBody [opt_tree generics; span left_parenthesis right_parenthesis; puncts parameters;
                                                    vec type_specifiers; opt_tree return_type; block; Tok e]))
                  end
              end
          end
      end
  end.

(** ** Expressions *)

(** [expect_expression_key], parsers.rs:1189-1251. *)
Definition expect_expression_key (p : parsers) (left_bracket : tokref) : M (option tree) :=
  let! r := p_expression p in
  match r with
  | NotFound => token_error left_bracket (str "expected an expression after `[`") ;; ret None
  | LexerMoved => ret None
  | Value expression =>
      let! o := require_with_reference_range_callback SRightBracket (str "expected `]` after expression")
                  (let! e := last_token expression in ret (left_bracket, e)) in
      match o with
      | None => ret None
      | Some right_bracket =>
          let! o := require_with_reference_range SEqual (str "expected `=` after expression") left_bracket right_bracket in
          match o with
          | None => ret None
          | Some equal_token =>
              let! r := p_expression p in
              match r with
              | NotFound => token_error equal_token (str "expected an expression after `=`") ;; ret None
              | LexerMoved => ret None
              | Value value => ret (Some (Nd KFieldExpressionKey [span left_bracket right_bracket; expression; Tok equal_token; value]))
              end
          end
      end
  end.

(** One field of a table constructor, parsers.rs:1270-1374; the right brace has been tested before. [None] is
    [return unfinished_table(...)]. The set constructor [{ .a }] depends on the cargo feature only. *)
Definition table_field (c : cfg) (p : parsers) (left_brace : tokref) (fields : punctuated tree) (t : tokref) : M (option tree) :=
  if is_symbol t SLeftBracket then
    let! left_bracket := take in
    expect_expression_key p left_bracket
  else
    let! name_key := (if is_identifier t then let! q := peek in ret (is_sym q SEqual) else ret false) in
    if name_key then
      let! key := take in
      let! equal_token := take in
      let! r := p_expression p in
      match r with
      | Value value => ret (Some (Nd KFieldNameKey [Tok key; Tok equal_token; value]))
      | NotFound => token_error equal_token (str "expected an expression after `=`") ;; ret None
      | LexerMoved => ret None
      end
    else if f_cfxlua (c_feat c) && is_symbol t SDot then
      let! dot := take in
      let! o := current in
      match o with
      | Some t =>
          if is_identifier t then let! key := take in ret (Some (Nd KFieldSetConstructor [Tok dot; Tok key]))
          else token_error t (str "expected identifier after `.`") ;; ret None
      | None => ret None
      end
    else
      let! r := p_expression p in
      match r with
      | Value value => ret (Some (Nd KFieldNoKey [value]))
      | NotFound =>
          let! e := match p_last fields with
                    | Some (End field) => last_token field
                    | Some (Punctuated field _) => last_token field
                    | None => ret left_brace
                    end in
          token_error e (str "expected a field") ;; ret None
      | LexerMoved => ret None
      end.

(** [force_table_constructor], parsers.rs:1253-1399. *)
Definition force_table_constructor (c : cfg) (p : parsers) (left_brace : tokref) : M tree :=
  let table (right_brace : tokref) (fields : punctuated tree) := Nd KTableConstructor [span left_brace right_brace; puncts fields] in
  let unfinished (fields : punctuated tree) : M tree := (let! b := basic c (str "}") in ret (table b fields)) in
  let! r := loop (B := tree + punctuated tree) (fun fields =>
    let! o := current in
    match o with
    | None => let! t := unfinished fields in ret (inr (inl t))
    | Some t =>
        if is_symbol t SRightBrace then let! b := take in ret (inr (inl (table b fields)))
        else
          let! f := table_field c p left_brace fields t in
          match f with
          | None => let! t := unfinished fields in ret (inr (inl t))
          | Some field => push_field fields field (fun fields => inr fields)
          end
    end) p_new in
  match r with
  | inl t => ret t
  | inr fields =>
      let! o := require SRightBrace (str "expected `}` after last field") in
      match o with
      | Some b => ret (table b fields)
      | None => unfinished fields
      end
  end.

(** [ast::Prefix], mod.rs:514-521. *)
Inductive prefix := PrefixExpression (e : tree) | PrefixName (r : tokref).
Definition prefix_tree (x : prefix) : tree :=
  match x with PrefixExpression e => Nd KPrefixExpression [e] | PrefixName r => Nd KPrefixName [Tok r] end.

(** [parse_prefix], parsers.rs:1554-1603. *)
Definition parse_prefix (c : cfg) (p : parsers) : M (pres prefix) :=
  let! o := current in
  match o with
  | None => ret NotFound
  | Some t =>
      if is_symbol t SLeftParen then
        let! left_parenthesis := take in
        let! r := p_expression p in
        match r with
        | LexerMoved => ret LexerMoved
        | NotFound => token_error left_parenthesis (str "expected an expression after `(`") ;; ret LexerMoved
        | Value expression =>
            let! o := require SRightParen (str "expected `)` after expression") in
            let! right_parenthesis := match o with Some r => ret r | None => basic c (str ")") end in
            ret (Value (PrefixExpression (Nd KExprParentheses [span left_parenthesis right_parenthesis; expression])))
        end
      else if is_identifier t then let! t := take in ret (Value (PrefixName t))
      else ret NotFound
  end.

(** [parse_arguments], parsers.rs:1605-1649. *)
Definition parse_arguments (c : cfg) (p : parsers) : M (pres tree) :=
  let! o := current in
  match o with
  | None => ret NotFound
  | Some t =>
      if is_symbol t SLeftParen then
        let! left_parenthesis := take in
        let! r := parse_expression_list p in
        match r with
        | LexerMoved => ret LexerMoved
        | _ =>
            let arguments := match r with Value l => l | _ => p_new end in
            let! o := require_with_reference_token SRightParen (str "expected `)` to close function call") left_parenthesis in
            let! right_parenthesis := match o with Some r => ret r | None => basic c (str ")") end in
            ret (Value (Nd KArgsParentheses [span left_parenthesis right_parenthesis; puncts arguments]))
        end
      else if is_symbol t SLeftBrace then
        let! left_brace := take in
        let! t := force_table_constructor c p left_brace in
        ret (Value (Nd KArgsTableConstructor [t]))
      else if is_string t then let! t := take in ret (Value (Nd KArgsString [Tok t]))
      else ret NotFound
  end.

(** [.name] and [?.name] in [parse_suffix], parsers.rs:1657-1704. *)
Definition dot_suffix (msg : text) : M (pres tree) :=
  let! dot := take in
  let! o := current in
  match o with
  | None => ret LexerMoved
  | Some t =>
      if is_identifier t then let! name := take in ret (Value (Nd KSuffixIndex [Nd KIndexDot [Tok dot; Tok name]]))
      else token_error dot msg ;; ret LexerMoved
  end.

(** [parse_suffix], parsers.rs:1651-1824. *)
Definition parse_suffix (c : cfg) (p : parsers) : M (pres tree) :=
  let! o := current in
  match o with
  | None => ret NotFound
  | Some t =>
      if f_cfxlua (c_feat c) && is_symbol t SQuestionMarkDot then dot_suffix (str "expected identifier after `?.`")
      else if is_symbol t SDot then dot_suffix (str "expected identifier after `.`")
      else if is_symbol t SLeftBracket then
        let! left_bracket := take in
        let! r := p_expression p in
        match r with
        | LexerMoved => ret LexerMoved
        | NotFound => token_error left_bracket (str "expected expression after `[`") ;; ret LexerMoved
        | Value expression =>
            let! e := last_token expression in
            let! o := require_with_reference_range SRightBracket (str "expected `]` to close index expression") left_bracket e in
            let! right_bracket := match o with Some r => ret r | None => basic c (str "]") end in
            ret (Value (Nd KSuffixIndex [Nd KIndexBrackets [span left_bracket right_bracket; expression]]))
        end
      else if is_symbol t SLeftParen || is_symbol t SLeftBrace || is_string t then
        let! r := parse_arguments c p in
        match r with
        | LexerMoved => ret LexerMoved
        | NotFound => panic
        | Value arguments => ret (Value (Nd KSuffixCall [Nd KCallAnonymous [arguments]]))
        end
      else
        let! instantiation := (if is_symbol t SLessThan && has_luau c then let! q := peek in ret (is_sym q SLessThan) else ret false) in
        if instantiation then
          let! outer_0 := take in
          let! r := expect_type_instantiation p outer_0 in
          ret (match r with Some t => Value (Nd KSuffixTypeInstantiation [t]) | None => LexerMoved end)
        else if is_symbol t SColon then
          let! colon_token := take in
          let! o := current in
          match o with
          | None => ret LexerMoved
          | Some t =>
              if is_identifier t then
                let! name := take in
                let! ti := (if has_luau c then
                              let! o := current in
                              if is_sym o SLessThan then
                                let! outer_0 := take in
                                let! r := expect_type_instantiation p outer_0 in
                                ret (match r with Some t => Some (Some t) | None => None end)
                              else ret (Some None)
                            else ret (Some None)) in
                match ti with
                | None => ret LexerMoved
                | Some type_instantiation =>
                    let! r := parse_arguments c p in
                    let! args := match r with
                                 | Value args => ret args
                                 | LexerMoved => function_args_empty c
                                 | NotFound => token_error name (str "expected arguments after `:`") ;; function_args_empty c
                                 end in
                    ret (Value (Nd KSuffixCall [Nd KCallMethod [Nd KMethodCall [Tok colon_token; Tok name; opt_tree type_instantiation; args]]]))
                end
              else token_error colon_token (str "expected identifier after `:`") ;; ret LexerMoved
          end
        else ret NotFound
  end.

(** [parse_prefix_and_suffixes], parsers.rs:1826-1854. *)
Definition parse_prefix_and_suffixes (c : cfg) (p : parsers) : M (pres (prefix * list tree)) :=
  let! r := parse_prefix c p in
  match r with
  | LexerMoved => ret LexerMoved
  | NotFound => ret NotFound
  | Value x =>
      let! suffixes := loop (fun suffixes =>
        let! r := parse_suffix c p in
        match r with
        | Value suffix => ret (inl (suffixes ++ [suffix]))
        | _ => ret (inr suffixes)
        end) [] in
      ret (Value (x, suffixes))
  end.

(** [matches!(suffix, ast::Suffix::Call(_))] *)
Definition is_call (t : tree) : bool := match t with Nd KSuffixCall _ => true | _ => false end.
Definition last_of {A} (l : list A) : option A := hd_error (rev l).

(** [expect_if_else_expression], parsers.rs:2394-2455. *)
Definition expect_if_else_expression (p : parsers) (if_token : tokref) : M (option tree) :=
  let! r := p_expression p in
  match r with
  | Value condition =>
      let! o := require SThen (str "expected `then` after condition") in
      match o with
      | None => ret None
      | Some then_token =>
          let! r := p_expression p in
          match r with
          | Value if_expression =>
              let! r := loop (fun else_ifs =>
                let! o := consume_if SElseIf in
                match o with
                | None => ret (inr (Some else_ifs))
                | Some else_if_token =>
                    let! r := p_expression p in
                    match r with
                    | Value condition =>
                        let! o := require SThen (str "expected `then` after condition") in
                        match o with
                        | None => ret (inr None)
                        | Some then_token =>
                            let! r := p_expression p in
                            match r with
                            | Value expression =>
                                ret (inl (else_ifs ++ [Nd KElseIfExpression [Tok else_if_token; condition; Tok then_token; expression]]))
                            | _ => ret (inr None)
                            end
                        end
                    | _ => ret (inr None)
                    end
                end) [] in
              match r with
              | None => ret None
              | Some else_ifs =>
                  let! o := require SElse (str "expected `else` when parsing if then else expression") in
                  match o with
                  | None => ret None
                  | Some else_token =>
                      let! r := p_expression p in
                      match r with
                      | Value else_expression =>
                          ret (Some (Nd KIfExpression [Tok if_token; condition; Tok then_token; if_expression;
                                                       opt_tree (match else_ifs with [] => None | _ => Some (vec else_ifs) end);
                                                       Tok else_token; else_expression]))
                      | _ => ret None
                      end
                  end
              end
          | _ => ret None
          end
      end
  | _ => ret None
  end.

(** [expect_interpolated_string], parsers.rs:2458-2552. *)
Definition expect_interpolated_string (p : parsers) (first : tokref) : M tree :=
  let! r := loop (fun '(segments, cur) =>
    let! has_double_brace :=
      (match r_trailing cur with
       | [] =>
           let! o := consume_if SLeftBrace in
           match o with
           | Some double_brace =>
               token_error double_brace (str "unexpected double brace, try \{ if you meant to escape") ;; ret true
           | None => ret false
           end
       | _ => ret false
       end) in
    let! r := p_expression p in
    match r with
    | NotFound => token_error cur (str "expected expression after `{`") ;; ret (inr (segments, None))
    | LexerMoved => ret (inr (segments, None))
    | Value expression =>
        let segments := segments ++ [Nd KInterpolatedStringSegment [Tok cur; expression]] in
        (if has_double_brace : bool then let! o := consume_if SRightBrace in ret tt else ret tt) ;;
        let! o := current in
        match o with
        | None => ret (inr (segments, None))
        | Some next =>
            match t_type (r_token next) with
            | TInterpolatedString _ IEnd => let! last := take in ret (inr (segments, Some last))
            | TInterpolatedString _ _ =>
                let! r := consume in
                match r with
                | Value t => ret (inl (segments, t))
                | _ => ret (inr (segments, None))
                end
            | _ =>
                token_error next (str "interpolated string parameter can only contain an expression") ;;
                ret (inr (segments, None))
            end
        end
    end) ([], first) in
  match r with
  | (segments, Some last) => ret (Nd KInterpolatedString [vec segments; Tok last])
  | ([], None) => ret (Nd KInterpolatedString [vec []; Tok first])
  | (segments, None) => ret (Nd KInterpolatedString [vec segments; Tok (mkRef [] (token_new (TInterpolatedString [] IEnd)) [])])
  end.

(** [UnOp], mod.rs:2360-2366, chosen in [parse_unary_expression], parsers.rs:2134-2148. *)
Definition unop (c : cfg) (r : tokref) : M tree :=
  if is_symbol r SMinus then ret (Nd (KUnOp SMinus) [Tok r])
  else if is_symbol r SNot then ret (Nd (KUnOp SNot) [Tok r])
  else if is_symbol r SHash then ret (Nd (KUnOp SHash) [Tok r])
  else if is_symbol r STilde && has_lua53 c then ret (Nd (KUnOp STilde) [Tok r])
  else panic.

(** [UnOp::precedence], mod.rs:2380-2382. *)
Definition unop_precedence : nat := 11.

(** [parse_unary_expression], parsers.rs:2130-2187. *)
Definition parse_unary_expression (c : cfg) (p : parsers) (unary_operator_token : tokref) : M (pres tree) :=
  let! operator := unop c unary_operator_token in
  let msg := str "expected an expression after " ++ show_token (r_token unary_operator_token) in
  let! r := p_primary p in
  match r with
  | NotFound => token_error unary_operator_token msg ;; ret NotFound
  | LexerMoved => ret LexerMoved
  | Value primary =>
      let! r := p_precedence p primary unop_precedence in
      match r with
      | Value expression => ret (Value (Nd KExprUnary [operator; expression]))
      | LexerMoved => ret LexerMoved
      | NotFound => token_error unary_operator_token msg ;; ret LexerMoved
      end
  end.

(** An anonymous function after its attributes and [function], parsers.rs:1880-1900, 1909-1930. *)
Definition anonymous_function (c : cfg) (p : parsers) (attributes : list tree) : M (pres tree) :=
  let! function_token := take in
  let! r := parse_function_body c p in
  match r with
  | Value body => ret (Value (Nd KExprFunction [Nd KAnonymousFunction [vec attributes; Tok function_token; body]]))
  | LexerMoved => ret LexerMoved
  | NotFound => token_error function_token (str "expected a function body") ;; ret LexerMoved
  end.

(** The [match] of [parse_primary_expression], parsers.rs:1872-2033. The second component tells whether the arm
    leaves the function by [return]. *)
Definition primary_arm (c : cfg) (p : parsers) : M (pres tree * bool) :=
  let return_ (r : pres tree) : M (pres tree * bool) := ret (r, true) in
  let value (m : M (pres tree)) : M (pres tree * bool) := (let! r := m in ret (r, false)) in
  (* an arm whose failures are all [return] statements *)
  let value_or_return (m : M (pres tree)) : M (pres tree * bool) :=
    (let! r := m in match r with Value _ => ret (r, false) | _ => ret (r, true) end) in
  let! o := current in
  match o with
  | None => return_ NotFound
  | Some t =>
      if f_luau (c_feat c) && is_symbol t SAtSign then
        let! r := parse_attributes in
        match r with
        | Value attributes =>
            let! o := current in
            match o with
            | None => return_ LexerMoved
            | Some t =>
                if is_symbol t SFunction then value_or_return (anonymous_function c p attributes)
                else token_error t (str "expected `function` after attributes") ;; return_ LexerMoved
            end
        | _ => return_ LexerMoved
        end
      else if is_symbol t SFunction then value_or_return (anonymous_function c p [])
      else if is_symbol t STrue || is_symbol t SFalse || is_symbol t SNil || is_symbol t SEllipsis then
        let! t := take in ret (Value (Nd KExprSymbol [Tok t]), false)
      else if is_string t then let! t := take in ret (Value (Nd KExprString [Tok t]), false)
      else if (match t_type (r_token t) with TNumber _ => true | _ => false end) then
        let! t := take in ret (Value (Nd KExprNumber [Tok t]), false)
      else if is_identifier t || is_symbol t SLeftParen then
        let! r := parse_prefix_and_suffixes c p in
        match r with
        | LexerMoved => return_ LexerMoved
        | NotFound => panic
        | Value (x, suffixes) =>
            match last_of suffixes with
            | None =>
                match x with
                | PrefixExpression e => ret (Value e, false)
                | PrefixName r => ret (Value (Nd KExprVar [Nd KVarName [Tok r]]), false)
                end
            | Some l =>
                if is_call l then ret (Value (Nd KExprFunctionCall [Nd KFunctionCall [prefix_tree x; vec suffixes]]), false)
                else ret (Value (Nd KExprVar [Nd KVarExpr [Nd KVarExpression [prefix_tree x; vec suffixes]]]), false)
            end
        end
      else if is_symbol t SMinus || is_symbol t SNot || is_symbol t SHash || (f_lua53 (c_feat c) && is_symbol t STilde) then
        let! operator := take in value (parse_unary_expression c p operator)
      else if is_symbol t SLeftBrace then
        let! left_brace := take in
        let! t := force_table_constructor c p left_brace in
        ret (Value (Nd KExprTableConstructor [t]), false)
      else if is_symbol t SIf && has_luau c then
        let! if_token := take in
        let! r := expect_if_else_expression p if_token in
        ret (match r with Some t => Value (Nd KExprIfExpression [t]) | None => LexerMoved end, false)
      else
        match t_type (r_token t) with
        | TInterpolatedString _ kind =>
            if has_luau c then
              let! begin := take in
              match kind with
              | ISimple => ret (Value (Nd KExprInterpolatedString [Nd KInterpolatedString [vec []; Tok begin]]), false)
              | IBegin => let! t := expect_interpolated_string p begin in ret (Value (Nd KExprInterpolatedString [t]), false)
              | _ => ret (NotFound, false)
              end
            else ret (NotFound, false)
        | _ => ret (NotFound, false)
        end
  end.

(** [parse_primary_expression], parsers.rs:1866-2057: the arm, then a type assertion. *)
Definition parse_primary_expression (c : cfg) (p : parsers) : M (pres tree) :=
  let! x := primary_arm c p in
  match x with
  | (Value expression, false) =>
      if has_luau c then
        let! o := consume_if STwoColons in
        match o with
        | Some assertion_op =>
            let! r := p_type p in
            match r with
            | Value cast_to => ret (Value (Nd KExprTypeAssertion [expression; Nd KTypeAssertion [Tok assertion_op; cast_to]]))
            | _ => ret LexerMoved
            end
        | None => ret (Value expression)
        end
      else ret (Value expression)
  | (r, _) => ret r
  end.

(** [BinOp::precedence_of_token], mod.rs:2230-2247 with the table 2291-2324; the arms of some operators exist only
    under a cargo feature. *)
Definition precedence_of_token (c : cfg) (r : tokref) : option nat :=
  match t_type (r_token r) with
  | TSymbol y =>
      match y with
      | SCaret => Some 12
      | SPercent | SSlash | SStar => Some 10
      | SDoubleSlash => if f_luau (c_feat c) || f_lua53 (c_feat c) then Some 10 else None
      | SMinus | SPlus => Some 9
      | STwoDots => Some 8
      | SDoubleLessThan | SDoubleGreaterThan => if f_lua53 (c_feat c) then Some 7 else None
      | SAmpersand => if f_lua53 (c_feat c) then Some 6 else None
      | STilde => if f_lua53 (c_feat c) then Some 5 else None
      | SPipe => if f_lua53 (c_feat c) then Some 4 else None
      | SGreaterThan | SGreaterThanEqual | SLessThan | SLessThanEqual | STildeEqual | STwoEqual => Some 3
      | SAnd => Some 2
      | SOr => Some 1
      | _ => None
      end
  | _ => None
  end.

(** [has_version!(state.lua_version(), ...)] of the operator table, mod.rs:2276-2278. *)
Definition binop_enabled (c : cfg) (y : symbol) : bool :=
  match y with
  | SDoubleSlash => has_luau c || has_lua53 c
  | SDoubleLessThan | SDoubleGreaterThan | SAmpersand | STilde | SPipe => has_lua53 c
  | _ => true
  end.

(** [BinOp::consume(state).unwrap()], mod.rs:2262-2289: the operator node and its token. *)
Definition consume_binop (c : cfg) : M (tree * tokref) :=
  let! o := current in
  match o with
  | None => panic
  | Some t =>
      match t_type (r_token t), precedence_of_token c t with
      | TSymbol y, Some _ => if binop_enabled c y then let! t := take in ret (Nd (KBinOp y) [Tok t], t) else panic
      | _, _ => panic
      end
  end.

(** [BinOp::is_right_associative_token], mod.rs:2342-2351. *)
Definition is_right_associative_token (r : tokref) : bool := is_symbol r SCaret || is_symbol r STwoDots.

(** The inner [while let], parsers.rs:2093-2119: [None] is [return ParserResult::Value(lhs)]. *)
Definition climb_right (c : cfg) (p : parsers) (bin_op_token : tokref) (bin_op_precedence : nat) (rhs : tree) : M (option tree) :=
  loop (fun rhs =>
    let! o := current in
    match o with
    | None => ret (inr (Some rhs))
    | Some t =>
        match precedence_of_token c t with
        | None => ret (inr (Some rhs))
        | Some next =>
            let search :=
              if Nat.ltb bin_op_precedence next then Some (S bin_op_precedence)
              else if is_right_associative_token t && Nat.eqb next bin_op_precedence then Some bin_op_precedence
              else None in
            match search with
            | None => ret (inr (Some rhs))
            | Some q =>
                let! r := p_precedence p rhs q in
                match r with
                | Value e => ret (inl e)
                | NotFound => token_error bin_op_token (str "expected expression after binary operator") ;; ret (inr None)
                | LexerMoved => ret (inr None)
                end
            end
        end
    end) rhs.

(** [parse_expression_with_precedence], parsers.rs:2060-2128. *)
Definition parse_expression_with_precedence (c : cfg) (p : parsers) (lhs : tree) (precedence : nat) : M (pres tree) :=
  loop (fun lhs =>
    let! o := current in
    match o with
    | None => ret (inr (Value lhs))
    | Some t =>
        match precedence_of_token c t with
        | None => ret (inr (Value lhs))
        | Some bin_op_precedence =>
            if Nat.ltb bin_op_precedence precedence then ret (inr (Value lhs))
            else
              let! op := consume_binop c in
              let! r := p_primary p in
              match r with
              | NotFound => token_error (snd op) (str "expected expression after binary operator") ;; ret (inr (Value lhs))
              | LexerMoved => ret (inr LexerMoved)
              | Value rhs =>
                  let! r := climb_right c p (snd op) bin_op_precedence rhs in
                  match r with
                  | None => ret (inr (Value lhs))
                  | Some rhs => ret (inl (Nd KExprBinary [lhs; fst op; rhs]))
                  end
              end
        end
    end) lhs.

(** [parse_expression], parsers.rs:1856-1864. *)
Definition parse_expression (c : cfg) (p : parsers) : M (pres tree) :=
  let! r := parse_primary_expression c p in
  match r with
  | Value e => parse_expression_with_precedence c p e 0
  | NotFound => ret NotFound
  | LexerMoved => ret LexerMoved
  end.

(** ** Statements *)

(** [StmtVariant], parsers.rs:113-119. *)
Inductive stmt_variant := VStmt (t : tree) | VLastStmt (t : tree).

(** [ast::Var], mod.rs:1663-1670. *)
Inductive var := VarExpression (x : prefix) (suffixes : list tree) | VarName (r : tokref).
Definition var_tree (v : var) : tree :=
  match v with
  | VarExpression x suffixes => Nd KVarExpr [Nd KVarExpression [prefix_tree x; vec suffixes]]
  | VarName r => Nd KVarName [Tok r]
  end.

(** [CompoundOp::from_token], compound.rs:70-104; the arms for Luau and cfxlua exist only under the feature. *)
Definition compound_op (c : cfg) (r : tokref) : M tree :=
  let try_ (ys : list symbol) := find (is_symbol r) ys in
  match try_ [SPlusEqual; SMinusEqual; SStarEqual; SSlashEqual; SCaretEqual] with
  | Some y => ret (Nd (KCompoundOp y) [Tok r])
  | None =>
      match (if f_luau (c_feat c) then try_ [SDoubleSlashEqual; SPercentEqual; STwoDotsEqual] else None) with
      | Some y => ret (Nd (KCompoundOp y) [Tok r])
      | None =>
          match (if f_cfxlua (c_feat c) then try_ [SDoubleLessThanEqual; SDoubleGreaterThanEqual; SAmpersandEqual; SPipeEqual] else None) with
          | Some y => ret (Nd (KCompoundOp y) [Tok r])
          | None => panic
          end
      end
  end.

(** [parse_compound_assignment], parsers.rs:122-137. *)
Definition parse_compound_assignment (c : cfg) (p : parsers) (v : var) : M (pres stmt_variant) :=
  let! compound_operator := take in
  let! r := p_expression p in
  match r with
  | Value expr =>
      let! op := compound_op c compound_operator in
      ret (Value (VStmt (Nd KStmtCompoundAssignment [Nd KCompoundAssignment [var_tree v; op; expr]])))
  | _ => token_error compound_operator (str "expected expression to set to") ;; ret LexerMoved
  end.

(** [expect_function_name], parsers.rs:710-771. *)
Definition expect_function_name : M (pres tree) :=
  let! o := current in
  match o with
  | None => ret NotFound
  | Some t =>
      if is_identifier t then
        let! name := take in
        loop (fun names =>
          let! o := current in
          match o with
          | None => ret (inr LexerMoved)
          | Some t =>
              if is_symbol t SColon || is_symbol t SDot then
                let! middle_token := take in
                let! o := current in
                match o with
                | None => ret (inr LexerMoved)
                | Some t =>
                    if is_identifier t then
                      let! name := take in
                      if is_symbol middle_token SDot then
                        let! names := push_punctuated names name middle_token in
                        ret (inl names)
                      else if is_symbol middle_token SColon then
                        ret (inr (Value (Nd KFunctionName [punct Tok names; Con CSome [Con CTuple [Tok middle_token; Tok name]]])))
                      else panic
                    else
                      token_error t (str "expected name after `" ++ show_token (r_token middle_token) ++ str "`") ;;
                      ret (inr NotFound)
                end
              else ret (inr (Value (Nd KFunctionName [punct Tok names; Con CNone []])))
          end) (p_push p_new (End name))
      else token_error t (str "expected function name") ;; ret NotFound
  end.

(** [expect_function_declaration], parsers.rs:773-800, with the attributes that the caller adds by [with_attributes]. *)
Definition expect_function_declaration (c : cfg) (p : parsers) (attributes : list tree) (function_token : tokref) : M (option tree) :=
  let! r := expect_function_name in
  match r with
  | Value name =>
      let! r := parse_function_body c p in
      let! body := match r with
                   | Value body => ret body
                   | LexerMoved => function_body_new c
                   | NotFound => token_error function_token (str "expected a function body") ;; function_body_new c
                   end in
      ret (Some (Nd KFunctionDeclaration [vec attributes; Tok function_token; name; body]))
  | _ => ret None
  end.

(** [expect_local_function_declaration], parsers.rs:802-835, with the attributes that the caller adds. *)
Definition expect_local_function_declaration (c : cfg) (p : parsers) (attributes : list tree) (local_token function_token : tokref) : M (option tree) :=
  let! o := current in
  match o with
  | None => ret None
  | Some t =>
      if is_identifier t then
        let! name := take in
        let! r := parse_function_body c p in
        match r with
        | Value body => ret (Some (Nd KLocalFunction [vec attributes; Tok local_token; Tok function_token; Tok name; body]))
        | NotFound => token_error function_token (str "expected a function body") ;; ret None
        | LexerMoved => ret None
        end
      else token_error t (str "expected a function name") ;; ret None
  end.

(** [expect_numeric_for_stmt], parsers.rs:925-994. *)
Definition expect_numeric_for_stmt (c : cfg) (p : parsers) (for_token : tokref) (index_variable : name) : M (option tree) :=
  let! equal_token := take in
  if negb (is_symbol equal_token SEqual) then panic
  else
    let! r := p_expression p in
    match r with
    | NotFound => token_error equal_token (str "expected start expression after `=`") ;; ret None
    | LexerMoved => ret None
    | Value start =>
        let! o := require SComma (str "expected `,` after start expression") in
        match o with
        | None => ret None
        | Some start_end_comma =>
            let! r := p_expression p in
            match r with
            | NotFound => token_error start_end_comma (str "expected end expression after `,`") ;; ret None
            | LexerMoved => ret None
            | Value end_ =>
                let! o := consume_if SComma in
                let! step :=
                  (match o with
                   | Some end_step_comma =>
                       let! r := p_expression p in
                       match r with
                       | Value step => ret (Some (Some end_step_comma, Some step))
                       | NotFound => token_error start_end_comma (str "expected step expression after `,`") ;; ret None
                       | LexerMoved => ret None
                       end
                   | None => ret (Some (None, None))
                   end) in
                match step with
                | None => ret None
                | Some (end_step_comma, step) =>
                    let! o := require SDo (str "expected `do` after step expression") in
                    match o with
                    | None => ret None
                    | Some do_token =>
                        let! r := expect_block_with_end c p (str "numeric for loop") do_token in
                        let! be := match r with Some be => ret be | None => let! e := basic c (str "end") in ret (block_new, e) end in
                        ret (Some (Nd KNumericFor [Tok for_token; Tok (n_name index_variable); Tok equal_token; start; Tok start_end_comma; end_;
                                                   opt_tok end_step_comma; opt_tree step; Tok do_token; fst be; Tok (snd be);
                                                   opt_tree (n_type_specifier index_variable)]))
                    end
                end
            end
        end
    end.

(** [expect_for_stmt], parsers.rs:837-923. *)
Definition expect_for_stmt (c : cfg) (p : parsers) (for_token : tokref) : M (option tree) :=
  let! r := parse_name_list c p in
  match r with
  | NotFound => token_error for_token (str "expected name after `for`") ;; ret None
  | LexerMoved => ret None
  | Value name_list =>
      let! o := current in
      match o with
      | None => ret None
      | Some current_token =>
          if p_is_empty name_list then panic
          else if Nat.eqb (p_len name_list) 1 && is_symbol current_token SEqual then
            match p_into_iter name_list with
            | index_variable :: _ =>
                let! r := expect_numeric_for_stmt c p for_token index_variable in
                ret (option_map (fun t => Nd KStmtNumericFor [t]) r)
            | [] => panic
            end
          else if is_symbol current_token SIn then
            let! in_token := take in
            let! r := parse_expression_list p in
            match r with
            | NotFound => token_error in_token (str "expected expressions after `in`") ;; ret None
            | LexerMoved => ret None
            | Value expressions =>
                let generic_for (do_token : tokref) (block : tree) (end_token : tokref) :=
                  Nd KStmtGenericFor [Nd KGenericFor
                    [Tok for_token; punct Tok (p_from_iter (map (pair_map n_name) (p_pairs name_list))); Tok in_token; puncts expressions;
                     Tok do_token; block; Tok end_token; vec (map (fun n => opt_tree (n_type_specifier n)) (p_into_iter name_list))]] in
                let! o := require SDo (str "expected `do` after expression list") in
                match o with
                | None =>
                    let! d := basic c (str "do") in
                    let! e := basic c (str "end") in
                    ret (Some (generic_for d block_new e))
                | Some do_token =>
                    let! r := expect_block_with_end c p (str "for loop") do_token in
                    let! be := match r with Some be => ret be | None => let! e := basic c (str "end") in ret (block_new, e) end in
                    ret (Some (generic_for do_token (fst be) (snd be)))
                end
            end
          else token_error current_token (str "expected `in` after name list") ;; ret None
      end
  end.

(** [else_if_optional], parsers.rs:1026-1032. *)
Definition else_if_optional (l : list tree) : option tree := match l with [] => None | _ => Some (vec l) end.

(** [expect_if_stmt], parsers.rs:996-1115. In the loop, the name [condition] of the three last calls of [unfinished_if] is the
    condition of the [elseif] (lines 1063-1083). *)
Definition expect_if_stmt (c : cfg) (p : parsers) (if_token : tokref) : M (option tree) :=
  let! r := p_expression p in
  match r with
  | NotFound => token_error if_token (str "expected condition after `if`") ;; ret None
  | LexerMoved => ret None
  | Value condition =>
      let! o := require SThen (str "expected `then` after condition") in
      match o with
      | None => ret None
      | Some then_token =>
          let! r := p_block p in
          match r with
          | NotFound =>
              token_error then_token (str "expected block after `then`") ;;
              let! t := if_new c condition None in ret (Some t)
          | LexerMoved => let! t := if_new c condition None in ret (Some t)
          | Value then_block =>
              let! r := loop (fun else_if =>
                let unfinished_if (condition : tree) : M (list tree + (tree + list tree)) :=
                  (let! t := if_new c condition (else_if_optional else_if) in ret (inr (inl t))) in
                let! o := current in
                match o with
                | None => unfinished_if condition
                | Some t =>
                    if is_symbol t SElseIf then
                      let! else_if_token := take in
                      let! r := p_expression p in
                      match r with
                      | NotFound => token_error else_if_token (str "expected condition after `elseif`") ;; unfinished_if condition
                      | LexerMoved => unfinished_if condition
                      | Value condition =>
                          let! o := require SThen (str "expected `then` after condition") in
                          match o with
                          | None => unfinished_if condition
                          | Some then_token =>
                              let! r := p_block p in
                              match r with
                              | NotFound => token_error then_token (str "expected block after `then`") ;; unfinished_if condition
                              | LexerMoved => unfinished_if condition
                              | Value block => ret (inl (else_if ++ [Nd KElseIf [Tok else_if_token; condition; Tok then_token; block]]))
                              end
                          end
                      end
                    else ret (inr (inr else_if))
                end) [] in
              match r with
              | inl t => ret (Some t)
              | inr else_if =>
                  let! o := consume_if SElse in
                  let! else_ := (match o with
                                 | Some else_token =>
                                     let! r := p_block p in
                                     match r with
                                     | Value block => ret (Some block, Some else_token)
                                     | NotFound => token_error else_token (str "expected block after `else`") ;; ret (Some block_new, Some else_token)
                                     | LexerMoved => ret (Some block_new, Some else_token)
                                     end
                                 | None => ret (None, None)
                                 end) in
                  let! o := current in
                  let! end_token := (match o with
                                     | Some t => if is_symbol t SEnd then take
                                                 else token_error t (str "expected `end` to conclude `if`") ;; basic c (str "end")
                                     | None => basic c (str "end")
                                     end) in
                  ret (Some (Nd KIf [Tok if_token; condition; Tok then_token; then_block; opt_tree (else_if_optional else_if);
                                     opt_tok (snd else_); opt_tree (fst else_); Tok end_token]))
              end
          end
      end
  end.

(** [expect_local_assignment], parsers.rs:1117-1187. [local x in y] depends on the cargo feature only. *)
Definition expect_local_assignment (c : cfg) (p : parsers) (local_token : tokref) : M (option tree) :=
  let! r := one_or_more (parse_name_with_attributes c p) SComma in
  match r with
  | NotFound => panic
  | LexerMoved => ret None
  | Value names =>
      let name_list := p_from_iter (map (pair_map n_name) (p_pairs names)) in
      let type_specifiers := map (fun n => opt_tree (n_type_specifier n)) (p_into_iter names) in
      let attributes := map (fun n => opt_tree (n_attribute n)) (p_into_iter names) in
      let local_assignment (equal_token : option tokref) (expr_list : punctuated tree) :=
        Nd KLocalAssignment [Tok local_token; vec type_specifiers; punct Tok name_list; vec attributes; opt_tok equal_token; puncts expr_list] in
      let! o := consume_if_symbols (if f_cfxlua (c_feat c) then [SEqual; SIn] else [SEqual]) in
      match o with
      | None => ret (Some (local_assignment None p_new))
      | Some equal_token =>
          let! r := parse_expression_list p in
          match r with
          | Value expr_list => ret (Some (local_assignment (Some equal_token) expr_list))
          | NotFound => token_error equal_token (str "expected an expression") ;; ret (Some (local_assignment (Some equal_token) p_new))
          | LexerMoved => ret (Some (local_assignment (Some equal_token) p_new))
          end
      end
  end.

(** [expect_repeat_stmt], parsers.rs:1401-1442. *)
Definition expect_repeat_stmt (c : cfg) (p : parsers) (repeat_token : tokref) : M (option tree) :=
  let! r := p_block p in
  match r with
  | NotFound => token_error repeat_token (str "expected a block after `repeat`") ;; ret None
  | LexerMoved => ret None
  | Value block =>
      let! o := require SUntil (str "expected `until` after block") in
      match o with
      | None => let! t := do_with_block c block in ret (Some t)
      | Some until_token =>
          let! r := p_expression p in
          match r with
          | NotFound =>
              token_error until_token (str "expected a condition after `until`") ;;
              let! t := do_with_block c block in ret (Some t)
          | LexerMoved => let! t := do_with_block c block in ret (Some t)
          | Value condition => ret (Some (Nd KStmtRepeat [Nd KRepeat [Tok repeat_token; block; Tok until_token; condition]]))
          end
      end
  end.

(** [expect_while_stmt], parsers.rs:1444-1481. *)
Definition expect_while_stmt (c : cfg) (p : parsers) (while_token : tokref) : M (option tree) :=
  let! r := p_expression p in
  match r with
  | NotFound => token_error while_token (str "expected a condition after `while`") ;; ret None
  | LexerMoved => ret None
  | Value condition =>
      let! o := require SDo (str "expected `do` after condition") in
      match o with
      | None => let! t := while_new c condition in ret (Some t)
      | Some do_token =>
          let! r := expect_block_with_end c p (str "while loop") do_token in
          match r with
          | Some (block, end_token) => ret (Some (Nd KWhile [Tok while_token; condition; Tok do_token; block; Tok end_token]))
          | None => let! t := while_new c condition in ret (Some t)
          end
      end
  end.

(** [expect_type_declaration], parsers.rs:1484-1518. *)
Definition expect_type_declaration (c : cfg) (p : parsers) (type_token : tokref) : M (option tree) :=
  let! o := current in
  match o with
  | None => ret None
  | Some t =>
      if is_identifier t then
        let! base := take in
        let! r := parse_generic_type_list c p WithDefaults in
        match r with
        | LexerMoved => ret None
        | _ =>
            let generics := match r with Value g => Some g | _ => None end in
            let! o := require SEqual (str "expected `=` after type name") in
            let! equal_token := match o with Some r => ret r | None => basic c (str "=") end in
            let! r := p_type p in
            match r with
            | Value declare_as => ret (Some (Nd KTypeDeclaration [Tok type_token; Tok base; opt_tree generics; Tok equal_token; declare_as]))
            | _ => ret None
            end
        end
      else token_error t (str "expected type name") ;; ret None
  end.

(** [expect_type_function], parsers.rs:1521-1552. *)
Definition expect_type_function (c : cfg) (p : parsers) (type_token function_token : tokref) : M (option tree) :=
  let! o := current in
  match o with
  | None => ret None
  | Some t =>
      if is_identifier t then
        let! name := take in
        let! r := parse_function_body c p in
        match r with
        | Value body => ret (Some (Nd KTypeFunction [Tok type_token; Tok function_token; Tok name; body]))
        | LexerMoved => ret None
        | NotFound => token_error function_token (str "expected a type function body") ;; ret None
        end
      else token_error t (str "expected a type function name") ;; ret None
  end.

(** A statement from [Result<_, ()>]: [Err(()) => return ParserResult::LexerMoved]. *)
Definition stmt_or_moved (k : kind) (o : option tree) : pres stmt_variant :=
  match o with Some t => Value (VStmt (Nd k [t])) | None => LexerMoved end.

(** [local], parsers.rs:145-187. *)
Definition local_stmt (c : cfg) (p : parsers) : M (pres stmt_variant) :=
  let! local_token := take in
  let! o := current in
  match o with
  | None => ret LexerMoved
  | Some next =>
      if is_identifier next then
        let! r := expect_local_assignment c p local_token in ret (stmt_or_moved KStmtLocalAssignment r)
      else if is_symbol next SFunction then
        let! function_token := take in
        let! r := expect_local_function_declaration c p [] local_token function_token in
        ret (stmt_or_moved KStmtLocalFunction r)
      else token_error next (str "expected either a variable name or `function`") ;; ret LexerMoved
  end.

(** The context-sensitive words of Luau, parsers.rs:325-437; [None]: none of them. *)
Definition contextual_stmt (c : cfg) (p : parsers) (v : var) : M (option (pres stmt_variant)) :=
  if has_luau c then
    match v with
    | VarName word =>
        match t_type (r_token word) with
        | TIdentifier w =>
            if text_eqb w (str "export") then
              let! o := current in
              match o with
              | None => ret (Some LexerMoved)
              | Some t =>
                  if (match t_type (r_token t) with TIdentifier w => text_eqb w (str "type") | _ => false end) then
                    let! type_token := take in
                    let! o := consume_if SFunction in
                    match o with
                    | Some function_token =>
                        let! r := expect_type_function c p type_token function_token in
                        ret (Some (match r with
                                   | Some t => Value (VStmt (Nd KStmtExportedTypeFunction [Nd KExportedTypeFunction [Tok word; t]]))
                                   | None => LexerMoved
                                   end))
                    | None =>
                        let! r := expect_type_declaration c p type_token in
                        ret (Some (match r with
                                   | Some t => Value (VStmt (Nd KStmtExportedTypeDeclaration [Nd KExportedTypeDeclaration [Tok word; t]]))
                                   | None => LexerMoved
                                   end))
                    end
                  else token_error_ranged t (str "expected `type` after `export`") word t ;; ret (Some LexerMoved)
              end
            else if text_eqb w (str "type") then
              let! o := consume_if SFunction in
              match o with
              | Some function_token =>
                  let! r := expect_type_function c p word function_token in ret (Some (stmt_or_moved KStmtTypeFunction r))
              | None =>
                  let! r := expect_type_declaration c p word in ret (Some (stmt_or_moved KStmtTypeDeclaration r))
              end
            else if text_eqb w (str "continue") then ret (Some (Value (VLastStmt (Nd KLastContinue [Tok word]))))
            else ret None
        | _ => ret None
        end
    | _ => ret None
    end
  else ret None.

(** The loop over the variables of an assignment, parsers.rs:450-513: [None] is [return LexerMoved]. *)
Definition var_loop (c : cfg) (p : parsers) (v : var) : M (option (punctuated var)) :=
  loop (fun var_list =>
    let! o := current in
    match o with
    | None => ret (inr None)
    | Some t =>
        if is_symbol t SComma then
          let! next_comma := take in
          let! r := parse_prefix_and_suffixes c p in
          match r with
          | LexerMoved => ret (inr (Some var_list))
          | NotFound => token_error next_comma (str "expected another variable") ;; ret (inr (Some var_list))
          | Value (next_prefix, next_suffixes) =>
              match last_of next_suffixes with
              | Some l =>
                  if is_call l then
                    let! e := match l with Nd KSuffixCall [call] => last_token call | _ => panic end in
                    token_error e (str "can't assign to the result of a call") ;; ret (inr (Some var_list))
                  else
                    let! var_list := push_punctuated var_list (VarExpression next_prefix next_suffixes) next_comma in
                    ret (inl var_list)
              | None =>
                  let v := match next_prefix with
                           | PrefixName r => VarName r
                           | PrefixExpression _ => VarExpression next_prefix next_suffixes
                           end in
                  let! var_list := push_punctuated var_list v next_comma in
                  ret (inl var_list)
              end
          end
        else ret (inr (Some var_list))
    end) (p_push p_new (End v)).

(** Compound operators, parsers.rs:293-317. *)
Definition is_compound (c : cfg) (t : tokref) : bool :=
  (has_luau c && existsb (is_symbol t) [SPlusEqual; SMinusEqual; SStarEqual; SSlashEqual; SDoubleSlashEqual; SPercentEqual; SCaretEqual; STwoDotsEqual])
  || (has_cfxlua c && existsb (is_symbol t) [SPlusEqual; SMinusEqual; SStarEqual; SSlashEqual; SCaretEqual; SDoubleLessThanEqual;
                                             SDoubleGreaterThanEqual; SAmpersandEqual; SPipeEqual]).

(** The last part of an assignment, parsers.rs:447-535. *)
Definition assignment (c : cfg) (p : parsers) (v : var) : M (pres stmt_variant) :=
  let! o := var_loop c p v in
  match o with
  | None => ret LexerMoved
  | Some var_list =>
      let! o := require SEqual (str "expected `=` after name") in
      match o with
      | None => ret LexerMoved
      | Some equal_token =>
          let! r := parse_expression_list p in
          let! expr_list := match r with
                            | Value l => ret l
                            | NotFound => token_error equal_token (str "expected values to set to") ;; ret p_new
                            | LexerMoved => ret p_new
                            end in
          ret (Value (VStmt (Nd KStmtAssignment [Nd KAssignment [punct var_tree var_list; Tok equal_token; puncts expr_list]])))
      end
  end.

(** Statements that start with a name or a parenthesis, parsers.rs:260-535. *)
Definition expression_stmt (c : cfg) (p : parsers) : M (pres stmt_variant) :=
  let! r := parse_prefix_and_suffixes c p in
  match r with
  | LexerMoved => ret LexerMoved
  | NotFound => panic
  | Value (x, suffixes) =>
      let continue (v : var) : M (pres stmt_variant) :=
        (let! o := current in
         match o with
         | None => ret LexerMoved
         | Some t =>
             if is_compound c t then parse_compound_assignment c p v
             else if is_symbol t SComma || is_symbol t SEqual then assignment c p v
             else
               let! r := contextual_stmt c p v in
               match r with
               | Some r => ret r
               | None => token_error t (str "unexpected expression when looking for a statement") ;; ret LexerMoved
               end
         end) in
      match last_of suffixes with
      | Some l =>
          if is_call l then ret (Value (VStmt (Nd KStmtFunctionCall [Nd KFunctionCall [prefix_tree x; vec suffixes]])))
          else continue (VarExpression x suffixes)
      | None =>
          match x with
          | PrefixName r => continue (VarName r)
          | PrefixExpression _ => continue (VarExpression x suffixes)
          end
      end
  end.

(** [goto], parsers.rs:538-571. *)
Definition goto_stmt (c : cfg) : M (pres stmt_variant) :=
  if negb (has_lua52 c || has_luajit c) then panic
  else
    let! goto_token := take in
    let! o := current in
    match o with
    | Some t =>
        if is_identifier t then
          let! label_name := take in
          ret (Value (VStmt (Nd KStmtGoto [Nd KGoto [Tok goto_token; Tok label_name]])))
        else token_error_ranged t (str "expected label name after `goto`") goto_token t ;; ret LexerMoved
    | None => token_error goto_token (str "expected label name after `goto`") ;; ret LexerMoved
    end.

(** [TokenReference::symbol("::").unwrap()], parsers.rs:603. *)
Definition two_colons (c : cfg) : M tokref :=
  let! r := lift (token_reference_symbol (c_feat c) (str "::")) in
  match r with SymOk r => ret r | SymErr _ => panic end.

(** A label, parsers.rs:573-612. *)
Definition label_stmt (c : cfg) : M (pres stmt_variant) :=
  let! left_colons := take in
  let! o := current in
  match o with
  | None => ret LexerMoved
  | Some t =>
      if is_identifier t then
        let! name := take in
        let! o := require STwoColons (str "expected `::` after label") in
        let! right_colons := match o with Some r => ret r | None => two_colons c end in
        ret (Value (VStmt (Nd KStmtLabel [Nd KLabel [Tok left_colons; Tok name; Tok right_colons]])))
      else token_error_ranged t (str "expected label name after `::`") left_colons t ;; ret LexerMoved
  end.

(** Attributes before a function, parsers.rs:614-673. *)
Definition attribute_stmt (c : cfg) (p : parsers) : M (pres stmt_variant) :=
  let! r := parse_attributes in
  match r with
  | Value attributes =>
      let! o := current in
      match o with
      | None => ret LexerMoved
      | Some t =>
          if is_symbol t SFunction then
            let! function_token := take in
            let! r := expect_function_declaration c p attributes function_token in
            ret (stmt_or_moved KStmtFunctionDeclaration r)
          else if is_symbol t SLocal then
            let! local_token := take in
            let! o := current in
            match o with
            | None => ret LexerMoved
            | Some t =>
                if is_symbol t SFunction then
                  let! function_token := take in
                  let! r := expect_local_function_declaration c p attributes local_token function_token in
                  ret (stmt_or_moved KStmtLocalFunction r)
                else token_error t (str "expected `local function` after attribute") ;; ret LexerMoved
            end
          else token_error t (str "expected `function` or `local function` after attribute") ;; ret LexerMoved
      end
  | _ => ret LexerMoved
  end.

(** [parse_stmt], parsers.rs:139-677. *)
Definition parse_stmt (c : cfg) (p : parsers) : M (pres stmt_variant) :=
  let! o := current in
  match o with
  | None => ret NotFound
  | Some t =>
      if is_symbol t SLocal then local_stmt c p
      else if is_symbol t SFor then
        let! for_token := take in
        let! r := expect_for_stmt c p for_token in
        ret (match r with Some t => Value (VStmt t) | None => LexerMoved end)
      else if is_symbol t SDo then
        let! do_token := take in
        let! r := expect_block_with_end c p (str "do") do_token in
        ret (match r with
             | Some (block, end_token) => Value (VStmt (Nd KStmtDo [Nd KDo [Tok do_token; block; Tok end_token]]))
             | None => LexerMoved
             end)
      else if is_symbol t SIf then
        let! if_token := take in
        let! r := expect_if_stmt c p if_token in ret (stmt_or_moved KStmtIf r)
      else if is_symbol t SFunction then
        let! function_token := take in
        let! r := expect_function_declaration c p [] function_token in ret (stmt_or_moved KStmtFunctionDeclaration r)
      else if is_symbol t SRepeat then
        let! repeat_token := take in
        let! r := expect_repeat_stmt c p repeat_token in
        ret (match r with Some t => Value (VStmt t) | None => LexerMoved end)
      else if is_symbol t SWhile then
        let! while_token := take in
        let! r := expect_while_stmt c p while_token in ret (stmt_or_moved KStmtWhile r)
      else if is_symbol t SLeftParen || is_identifier t then expression_stmt c p
      else if is_symbol t SGoto && (f_lua52 (c_feat c) || f_luajit (c_feat c) || f_cfxlua (c_feat c)) then goto_stmt c
      else if is_symbol t STwoColons && (has_lua52 c || has_luajit c) then label_stmt c
      else if is_symbol t SAtSign && has_luau c then attribute_stmt c p
      else ret NotFound
  end.

(** [parse_last_stmt], parsers.rs:679-708: the statement and its semicolon. *)
Definition parse_last_stmt (p : parsers) : M (pres (tree * option tokref)) :=
  let finish (t : tree) : M (pres (tree * option tokref)) :=
    (let! semicolon := consume_if SSemicolon in ret (Value (t, semicolon))) in
  let! o := current in
  match o with
  | Some t =>
      if is_symbol t SReturn then
        let! return_token := take in
        let! r := parse_expression_list p in
        let expr_list := match r with Value l => l | _ => p_new end in
        finish (Nd KLastReturn [Nd KReturn [Tok return_token; puncts expr_list]])
      else if is_symbol t SBreak then
        let! break_token := take in
        finish (Nd KLastBreak [Tok break_token])
      else ret NotFound
  | None => ret NotFound
  end.

(** A statement or last statement with its semicolon, and a block. *)
Definition stmt_pair (t : tree) (semicolon : option tokref) : tree := Con CTuple [t; opt_tok semicolon].
Definition block_tree (stmts : list tree) (last_stmt : option (tree * option tokref)) : tree :=
  Nd KBlock [vec stmts; opt_tree (option_map (fun x : tree * option tokref => stmt_pair (fst x) (snd x)) last_stmt)].

(** [parse_block], parsers.rs:38-71. *)
Definition parse_block (c : cfg) (p : parsers) : M (pres tree) :=
  let! r := loop (fun stmts =>
    let! r := parse_stmt c p in
    match r with
    | Value (VStmt stmt) =>
        let! semicolon := consume_if SSemicolon in
        ret (inl (stmts ++ [stmt_pair stmt semicolon]))
    | Value (VLastStmt last_stmt) =>
        let! semicolon := consume_if SSemicolon in
        ret (inr (inl (Value (block_tree stmts (Some (last_stmt, semicolon))))))
    | NotFound => ret (inr (inr stmts))
    | LexerMoved => match stmts with [] => ret (inr (inl LexerMoved)) | _ => ret (inr (inr stmts)) end
    end) [] in
  match r with
  | inl r => ret r
  | inr stmts =>
      let! r := parse_last_stmt p in
      ret (Value (block_tree stmts (match r with Value x => Some x | _ => None end)))
  end.

(** ** The recursive functions on fuel *)
Definition no_fuel : parsers :=
  mkParsers (lift OutOfFuel) (lift OutOfFuel) (lift OutOfFuel) (fun _ _ => lift OutOfFuel) (lift OutOfFuel) (lift OutOfFuel).
Definition parsers_step (c : cfg) (p : parsers) : parsers :=
  mkParsers (parse_block c p) (parse_expression c p) (parse_primary_expression c p) (parse_expression_with_precedence c p)
            (parse_type c p) (parse_type_or_pack c p).
Fixpoint parsers_at (c : cfg) (n : nat) : parsers :=
  match n with O => no_fuel | S n => parsers_step c (parsers_at c n) end.

(** ** The whole parser: [AstResult::parse_fallible], parser_structs.rs:287-383 *)

(** [UNEXPECTED_TOKEN_ERROR], parser_structs.rs:288. *)
Definition unexpected_token_error : text := str "unexpected token, this needs to be a statement".

(** [Block::merge_blocks], mod.rs:110-116. *)
Definition merge_blocks (a b : tree) : tree :=
  match a, b with
  | Nd KBlock [Con CVec l; x], Nd KBlock [Con CVec m; y] =>
      Nd KBlock [Con CVec (l ++ m); match x with Con CNone _ => y | _ => x end]
  | _, _ => a
  end.

(** [parser_state.errors.last()] has the message [UNEXPECTED_TOKEN_ERROR]. *)
Definition last_error_unexpected (es : list error) : bool :=
  match last_of es with Some (AstError _ msg _) => text_eqb msg unexpected_token_error | _ => false end.
Definition errors : M (list error) := fun s => Done (st_errors s, s).

(** [parser_state.lexer.current()], which may be [None] at the end of the stream. *)
Definition lexer_current : M (option (lexres tokref)) := fun s => Done (hd_error (st_toks s), s).

(** One more block after the first one, parser_structs.rs:309-347: the new value of [block], or [inr] for [break]. *)
Definition next_block (parse_block : M (pres tree)) (block_has_last_stmt : bool) (block : tree) : M (tree + tree) :=
  let! r := parse_block in
  match r with
  | Value new_block =>
      match block_stmts new_block with
      | [] =>
          let! o := current in
          if (match o with Some t => is_eof t | None => false end) then ret (inr block)
          else
            let! r := consume in
            match r with
            | Value t =>
                let! es := errors in
                if last_error_unexpected es then ret (inl block)
                else token_error t unexpected_token_error ;; ret (inl block)
            | LexerMoved => ret (inl block)
            | NotFound => panic
            end
      | _ =>
          (if block_has_last_stmt then
             let! t := first_token new_block in
             token_error t (str "unexpected statement after last statement")
           else ret tt) ;;
          ret (inl (merge_blocks block new_block))
      end
  | _ => ret (inl block)
  end.

(** The loop, parser_structs.rs:302-359. The errors of a fatal result are added as [consume] adds them. *)
Definition fallible_loop (parse_block : M (pres tree)) (block_has_last_stmt : bool) (block : tree) : M tree :=
  loop (fun block =>
    let! o := lexer_current in
    match o with
    | Some (LOk t) => if is_eof t then ret (inr block) else next_block parse_block block_has_last_stmt block
    | Some (LRecovered _ _) => next_block parse_block block_has_last_stmt block
    | Some (LFatal _) => let! r := consume in ret (inl block)
    | None => ret (inr block)
    end) block.

(** [parser_state.lexer.consume().unwrap()] and the match on it, parser_structs.rs:361-377, with [debug_assert_eq!]. *)
Definition final_token : M tokref :=
  let! r := consume in
  match r with
  | Value t => if is_eof t then ret t else panic
  | LexerMoved => panic
  | NotFound => panic
  end.

(** [parse_fallible] on the results that the lexer delivers. *)
Definition parse_stream (c : cfg) : M ast := fun s =>
  let parse_block := p_block (parsers_at c (S (List.length (st_toks s)))) in
  (let! r := parse_block in
   let block := match r with Value block => block | _ => block_new end in
   let block_has_last_stmt := match block_last_stmt block with Some _ => true | None => false end in
   let! block := fallible_loop parse_block block_has_last_stmt block in
   let! eof := final_token in
   ret (mkAst block eof)) s.

(** All the results that a lexer delivers, by calling [consume] until it returns [None]. *)
Fixpoint lexer_results (fuel : nat) (c : cfg) (x : Lexer) : out (list (lexres tokref)) :=
  match fuel with
  | O => OutOfFuel
  | S fuel =>
      match lexer_consume c x with
      | Done (Some r, x) => match lexer_results fuel c x with Done rs => Done (r :: rs) | o => o end
      | Done (None, _) => Done []
      | Panic => Panic
      | OutOfFuel => OutOfFuel
      end
  end.
(** [Lexer::new(code, lua_version)]; there are at most one result per character and the end of file. *)
Definition lex_all (c : cfg) (code : text) : out (list (lexres tokref)) :=
  match lexer_new c code with
  | Done x => lexer_results (S (S (List.length code))) c x
  | Panic => Panic
  | OutOfFuel => OutOfFuel
  end.

(** [AstResult { ast, errors }], parser_structs.rs:246-253. *)
Record ast_result := mkResult { ar_ast : ast; ar_errors : list error }.

(** [parse_fallible], parser_structs.rs:287-383. *)
Definition parse_fallible (c : cfg) (code : text) : out ast_result :=
  match lex_all c code with
  | Done toks =>
      match parse_stream c (mkState toks []) with
      | Done (ast, s) => Done (mkResult ast (st_errors s))
      | Panic => Panic
      | OutOfFuel => OutOfFuel
      end
  | Panic => Panic
  | OutOfFuel => OutOfFuel
  end.

(** [From<AstResult> for Result<Ast, Vec<Error>>], parser_structs.rs:391-399, and [parse], lib.rs. *)
Definition into_result (r : ast_result) : ast + list error :=
  match ar_errors r with [] => inl (ar_ast r) | es => inr es end.
Definition parse (c : cfg) (code : text) : out (ast + list error) :=
  match parse_fallible c code with Done r => Done (into_result r) | Panic => Panic | OutOfFuel => OutOfFuel end.
