#!/usr/bin/env python3
"""Compare the model with the snapshots of the project's test suite.

Reads /repo/full-moon/tests as text, evaluates the Coq model of the parser on every source.lua and compares, with the recorded
snapshots: the tokens (kind and positions), the errors (message, token, range), the tokens of the tree with their trivia, in order,
and the names of the enum variants of the tree, in order. Needs a finished build in rocq/. Usage: snapshots.py [tests [rocq/theories]]
"""
import glob, os, re, subprocess, sys, tempfile

TESTS = sys.argv[1] if len(sys.argv) > 1 else '/repo/full-moon/tests'
THEORIES = sys.argv[2] if len(sys.argv) > 2 else os.path.join(os.path.dirname(os.path.abspath(__file__)), '../rocq/theories')
CFG = {'cases': 'cfg_lua51', 'roblox_cases': 'cfg_luau', 'lua52_cases': '(cfg_in V52)', 'lua53_cases': '(cfg_in V53)',
       'lua54_cases': '(cfg_in V54)', 'luajit_cases': 'cfg_jit', 'cfxlua_cases': 'cfg_cfxlua'}
# snapshots that no test writes any more
STALE = {'cfxlua_cases/fail/tokenizer/compile_time_jenkins_hashes/tokens.snap', 'cfxlua_cases/fail/tokenizer/safe_navigation/tokens.snap'}
HEADER = '''From Verif Require Import LexerSpec PunctuatedProofs.
From Verif Require Import GrammarAccept GrammarSpec PropertiesParser4 PropertiesParser5 TokenSpec ParserTheorems ParserAccept.
Local Open Scope N_scope.
Import ListNotations.
Definition epos p := [p_bytes p; p_line p; p_char p].
Definition kd (t : token_type) : N := match kind_of t with KdEof => 0 | KdIdentifier => 1 | KdMultiLineComment => 2 | KdNumber => 3
| KdShebang => 4 | KdSingleLineComment => 5 | KdStringLiteral => 6 | KdSymbol => 7 | KdWhitespace => 8 | KdInterpolatedString => 9 | KdCStyleComment => 10 end.
Definition etok t := kd (t_type t) :: epos (t_start t) ++ epos (t_end t).
Definition eref r := map etok (r_leading r ++ [r_token r] ++ r_trailing r).
Definition eerr e := match e with
| TokenizerError e => [0] :: match te_error e with UnclosedComment => [0] | UnclosedString => [1] | InvalidNumber => [2]
    | UnexpectedToken c => [3; c] | InvalidSymbol s => 4 :: s end :: [epos (fst (te_range e)) ++ epos (snd (te_range e))]
| AstError t a r => [1] :: etok t :: a :: [match r with Some (x, y) => epos x ++ epos y | None => [] end] end.
Inductive item := IK (k : kind) | IC (c : container).
Fixpoint ks (t : tree) : list item := match t with Tok _ => [] | Con c cs => IC c :: flat_map ks cs | Nd k cs => IK k :: flat_map ks cs end.
Definition run c s := match parse_fallible c s with
| Done (mkResult a es) => (flat_map eref (leaves (a_nodes a)), eref (a_eof a), map eerr es,
    match tokenize c s with Done rs => map etok (tokens_of rs) | _ => [] end, ks (a_nodes a))
| _ => ([[999]], [], [], [], []) end.
'''
KINDS = ['Eof', 'Identifier', 'MultiLineComment', 'Number', 'Shebang', 'SingleLineComment', 'StringLiteral', 'Symbol', 'Whitespace',
         'InterpolatedString', 'CStyleComment']
TOKEN = re.compile(r'start_position:\s*bytes: (\d+)\s*line: (\d+)\s*character: (\d+)\s*end_position:\s*bytes: (\d+)\s*line: (\d+)\s*'
                   r'character: (\d+)\s*token_type:\s*type: (\w+)')
NUMBERS = re.compile(r'(?:bytes|line|character): (\d+)')
# variants with a constructor name that is not prefix + variant
VARIANT = {'KExprBinary': 'BinaryOperator', 'KExprUnary': 'UnaryOperator', 'KCallAnonymous': 'AnonymousCall', 'KCallMethod': 'MethodCall',
           'KVarExpr': 'Expression', 'KTypeUnionV': 'Union', 'KTypeIntersectionV': 'Intersection', 'KIndexedBasic': 'Basic',
           'KIndexedGeneric': 'Generic', 'KTypeFieldKeyName': 'Name', 'KTypeFieldKeyIndexSignature': 'IndexSignature',
           'KGenericParamName': 'Name', 'KGenericParamVariadic': 'Variadic'}
STRUCT = set('''KBlock KReturn KTableConstructor KAnonymousFunction KNumericFor KGenericFor KIf KElseIf KWhile KRepeat KMethodCall
KFunctionBody KVarExpression KAssignment KLocalFunction KLocalAssignment KDo KFunctionCall KFunctionName KFunctionDeclaration
KCompoundAssignment KGoto KLabel KAttribute KTypeUnion KTypeIntersection KTypeField KTypeAssertion KTypeDeclaration
KGenericDeclarationParameter KGenericDeclaration KTypeSpecifier KTypeArgument KExportedTypeDeclaration KTypeFunction
KExportedTypeFunction KIfExpression KElseIfExpression KInterpolatedString KInterpolatedStringSegment KLuauAttribute
KTypeInstantiation'''.split())

def tokens(s):
    return [[KINDS.index(m.group(7))] + [int(m.group(i)) for i in range(1, 7)] for m in TOKEN.finditer(s)]

def body(path):
    s = open(path).read()
    return s.split('---', 2)[2] if s.startswith('---') else s

def unquote(s):
    s = s.strip()
    if s[:1] == '"':
        return s[1:-1].encode().decode('unicode_escape')
    if s[:1] == "'":
        return s[1:-1].replace("''", "'")
    return s

def errors(s):
    res = []
    for e in re.split(r'(?m)^- ', s)[1:]:
        if e.startswith('AstError'):
            message = re.search(r'(?m)^    additional: (.*)$', e).group(1)
            res.append([[1], tokens(e)[0], [ord(c) for c in unquote(message)], [int(x) for x in NUMBERS.findall(e[e.index('additional:'):])]])
        else:
            head, rest = e.split('range:', 1)
            m = re.search(r'UnexpectedToken: (.*)', head)
            n = re.search(r'InvalidSymbol: (.*)', head)
            if m:
                k = [3, ord(unquote(m.group(1)))]
            elif n:
                k = [4] + [ord(c) for c in unquote(n.group(1))]
            else:
                k = [['UnclosedComment', 'UnclosedString', 'InvalidNumber'].index(re.search(r'error: (\w+)', head).group(1))]
            res.append([[0], k, [int(x) for x in NUMBERS.findall(rest)]])
    return res

def variant(x):
    m = re.match(r'IK \((?:KBinOp|KUnOp|KCompoundOp) S(\w+)\)', x)
    if m:
        return m.group(1)
    m = re.match(r'IK (\w+)', x)
    if m:
        k = m.group(1)
        if k in STRUCT:
            return None
        return VARIANT.get(k) or re.sub(r'^K(Last|Field|Expr|Stmt|Prefix|Index|Args|Suffix|Param|Var|Type)', '', k)
    return {'CEnd': 'End', 'CPunct': 'Punctuated'}.get(x.split()[1])

cases, lines = [], [HEADER]
for d, cfg in CFG.items():
    for f in sorted(glob.glob(f'{TESTS}/{d}/**/source.lua', recursive=True)):
        cases.append(os.path.dirname(f))
        lines.append('Eval vm_compute in run %s [%s].' % (cfg, ';'.join(str(ord(ch)) for ch in open(f, 'rb').read().decode('utf8'))))
with tempfile.TemporaryDirectory() as tmp:
    open(tmp + '/Run.v', 'w').write('\n'.join(lines) + '\n')
    out = subprocess.run(['coqc', '-Q', THEORIES, 'Verif', tmp + '/Run.v'], capture_output=True, text=True)
assert out.returncode == 0, out.stderr
results = re.split(r'(?m)^     : ', out.stdout)[:-1]
assert len(results) == len(cases)
checked, wrong = 0, []
for case, text in zip(cases, results):
    text = text[text.index('     = ') + 7:].replace('%N', '').replace(';', ',')
    text = re.sub(r'I([KC]) (\([^)]*\)|\w+)', r'"I\1 \2"', re.sub(r'\s+', ' ', text))
    leaves, eof, es, tk, items = eval(text)
    if '/fail/' in case:
        leaves = leaves + eof
    names = [v for v in map(variant, items) if v]
    def check(name, ours):
        global checked
        path = case + '/' + name + '.snap'
        if not os.path.exists(path) or os.path.relpath(path, TESTS) in STALE:
            return False
        checked += 1
        if ours != (errors if name == 'errors' else tokens)(body(path)):
            wrong.append(path)
        return True
    check('ast', leaves)
    check('tokens', tk)
    check('tokens_result', tk)
    if not check('errors', es) and es:
        wrong.append(case + ': unexpected errors')
    theirs = re.findall(r'(?m)^ *(?:- )*([A-Z][A-Za-z]+):', body(case + '/ast.snap'))
    checked += 1
    if theirs != names:
        wrong.append(case + ': variants')
print(len(cases), 'cases,', checked, 'comparisons,', len(wrong), 'differences')
print('\n'.join(wrong))
