#!/usr/bin/env python3
"""Writes rocq/theories/GenSamples.v: the schema documents of /repo/samples and the AddTypesToSchema functions that schemagen generated
from them (both are in /repo), as terms of the model, with the checks that the model of schemagen generates the same code."""
import re, os
root = os.path.dirname(os.path.dirname(os.path.abspath(__file__)))
repo = '/repo'
LOCS = {x: x + '_LOC' for x in ('SCHEMA', 'SCALAR', 'OBJECT', 'INTERFACE', 'UNION', 'ENUM', 'INPUT_OBJECT')}
def q(s): return '"' + s.replace('"', '""') + '"'
def lst(xs): return '[' + '; '.join(xs) + ']'

# ---------- schema documents
TOK = re.compile(r'''(?P<ws>[\s,]+|\#[^\n]*)|(?P<block>"""(?:.|\n)*?""")|(?P<str>"(?:[^"\\\n]|\\.)*")|(?P<num>-?\d+(?:\.\d+)?)|(?P<name>[_A-Za-z]\w*)|(?P<p>[{}()\[\]:!=|@&$])''')
def tokens(text):
    i, out = 0, []
    while i < len(text):
        m = TOK.match(text, i); assert m, text[i:i+40]
        if m.lastgroup != 'ws': out.append((m.lastgroup, m.group(), m.start(), m.end()))
        i = m.end()
    return out
class P:
    def __init__(s, text): s.text, s.t, s.i = text, tokens(text), 0
    def peek(s, k=0): return s.t[s.i+k][1] if s.i+k < len(s.t) else None
    def kind(s): return s.t[s.i][0] if s.i < len(s.t) else None
    def next(s): s.i += 1; return s.t[s.i-1][1]
    def eat(s, x): assert s.peek() == x, (s.peek(), x); s.i += 1
    def opt(s, x):
        if s.peek() == x: s.i += 1; return True
        return False
    def desc(s):
        if s.kind() == 'block': return s.next()[3:-3]
        if s.kind() == 'str': return s.next()[1:-1]
        return ''
    def type(s):
        if s.opt('['): t = '(TListOf %s)' % s.type(); s.eat(']')
        else: t = '(TNamed %s)' % q(s.next())
        return '(TNonNull %s)' % t if s.opt('!') else t
    def lit(s):
        k = s.kind()
        if s.opt('['):
            xs = []
            while not s.opt(']'): xs.append(s.lit())
            return '(LList SL %s)' % lst(xs)
        v = s.next()
        if k in ('str',): return '(LString SL %s)' % q(v[1:-1])
        if k in ('block',): return '(LString SL %s)' % q(v[3:-3])
        if k == 'num': assert '.' not in v; return '(LInt SL (%s))' % v
        if v in ('true', 'false'): return '(LBool SL %s)' % v
        if v == 'null': return '(LNull SL)'
        return '(LEnum SL %s)' % q(v)
    def dirs(s):
        out = []
        while s.opt('@'):
            n = s.next(); args = []
            if s.opt('('):
                while not s.opt(')'):
                    a = s.next(); s.eat(':'); args.append('(SL, (%s, %s))' % (q(a), s.lit()))
            out.append('(mkDir SL %s %s)' % (q(n), lst(args)))
        return lst(out)
    def input(s):
        d = s.desc(); n = s.next(); s.eat(':'); t = s.type(); df = 'None'
        if s.opt('='):
            a = s.t[s.i][2]; l = s.lit(); b = s.t[s.i-1][3]; df = '(Some (%s, %s))' % (l, q(s.text[a:b]))
        s.dirs()
        return '(mkSdlInput %s %s %s %s)' % (q(n), q(d), t, df)
    def inputs(s, a, b):
        out = []
        if s.opt(a):
            while not s.opt(b): out.append(s.input())
        return lst(out)
    def field(s):
        d = s.desc(); n = s.next(); args = s.inputs('(', ')'); s.eat(':'); t = s.type(); ds = s.dirs()
        return '(mkSdlField %s %s %s %s %s)' % (q(n), q(d), args, t, ds)
    def fields(s):
        out = []
        if s.opt('{'):
            while not s.opt('}'): out.append(s.field())
        return lst(out)
    def doc(s):
        out = []
        while s.i < len(s.t): out.append(s.definition())
        return out
    def definition(s):
        d = s.desc(); ext = s.opt('extend'); k = s.next(); pre = 'Ext' if ext else 'Def'
        head = lambda n: q(n) + ('' if ext else ' ' + q(d))
        if k == 'schema':
            s.dirs(); s.eat('{'); ops = []
            while not s.opt('}'):
                o = s.next(); s.eat(':'); ops.append('(%s, %s)' % ({'query': 'OpQuery', 'mutation': 'OpMutation', 'subscription': 'OpSubscription'}[o], q(s.next())))
            return pre + 'Schema ' + lst(ops)
        if k == 'directive':
            s.eat('@'); n = s.next(); args = s.inputs('(', ')'); s.eat('on'); s.opt('|'); locs = [s.next()]
            while s.opt('|'): locs.append(s.next())
            return 'DefDirective %s %s %s %s' % (q(n), q(d), lst('SchemaModel.' + LOCS.get(x, x) for x in locs), args)
        n = s.next()
        if k == 'scalar': s.dirs(); return pre + 'Scalar ' + head(n)
        if k == 'type':
            is_ = []
            if s.opt('implements'):
                s.opt('&'); is_.append(s.next())
                while s.opt('&'): is_.append(s.next())
            s.dirs(); return '%sObject %s %s %s' % (pre, head(n), lst(map(q, is_)), s.fields())
        if k == 'interface': s.dirs(); return '%sInterface %s %s' % (pre, head(n), s.fields())
        if k == 'input': s.dirs(); return '%sInput %s %s' % (pre, head(n), s.inputs('{', '}'))
        if k == 'enum':
            s.dirs(); s.eat('{'); vs = []
            while not s.opt('}'):
                vd = s.desc(); v = s.next(); vs.append('(mkSdlEnum %s %s %s)' % (q(v), q(vd), s.dirs()))
            return '%sEnum %s %s' % (pre, head(n), lst(vs))
        if k == 'union':
            s.dirs(); s.eat('='); s.opt('|'); os_ = [s.next()]
            while s.opt('|'): os_.append(s.next())
            return '%sUnion %s %s' % (pre, head(n), lst(map(q, os_)))
        raise Exception(k)

# ---------- generated code
CT = re.compile(r'''(?P<ws>\s+)|(?P<raw>R"(?P<d>\w+)\((?P<body>(?:.|\n)*?)\)(?P=d)"(?:sv)?)|"(?P<s>[^"]*)"(?:sv)?|(?P<name>[\w:]+(?:<[\w: ]+>)?)|(?P<p>->|[{}()\[\],;=])''')
def ctokens(text):
    i, out = 0, []
    while i < len(text):
        m = CT.match(text, i); assert m, text[i:i+60]
        if m.group('ws') is None:
            if m.group('raw'): out.append(('str', m.group('body')))
            elif m.group('s') is not None: out.append(('str', m.group('s')))
            else: out.append(('tok', m.group()))
        i = m.end()
    return out
def body(text, start):
    i = text.index('{', text.index(start)); m = re.compile(r'^}', re.M).search(text, i)
    return text[i+1:m.start()]
KINDS = {'EnumType': 'ENUM', 'InputObjectType': 'INPUT_OBJECT', 'UnionType': 'UNION', 'InterfaceType': 'INTERFACE', 'ObjectType': 'OBJECT'}
class C:
    def __init__(s, text): s.t, s.i = ctokens(text), 0
    def peek(s, k=0): return s.t[s.i+k][1] if s.i+k < len(s.t) else None
    def next(s): s.i += 1; return s.t[s.i-1][1]
    def eat(s, *xs):
        for x in xs: assert s.t[s.i] == ('tok', x), (s.t[s.i-3:s.i+3], x); s.i += 1
    def str(s): assert s.t[s.i][0] == 'str', s.t[s.i-3:s.i+3]; return s.next()
    def opt(s, x):
        if s.i < len(s.t) and s.t[s.i] == ('tok', x): s.i += 1; return True
        return False
    def type(s):
        v = s.next()
        if v.startswith('std::static_pointer_cast<'): s.eat('('); r = s.type(); s.eat(')'); return r
        if v.startswith('type'): return '(EVar %s)' % q(v)
        assert v == 'schema'; s.eat('->'); f = s.next(); s.eat('(')
        if f == 'LookupType': r = '(ELookup %s)' % q(s.str())
        else:
            assert f == 'WrapType'; k = s.next().split('::')[-1]; s.eat(','); r = '(EWrap %s %s)' % (k, s.type())
        s.eat(')'); return r
    def dep(s):
        if s.opt('std::nullopt'): return 'None'
        s.eat('std::make_optional', '('); r = '(Some %s)' % q(s.str()); s.eat(')'); return r
    def many(s, f, a='{', b='}'):
        out = []; s.eat(a)
        while not s.opt(b): out.append(f()); s.opt(',')
        return lst(out)
    def input(s):
        s.eat('schema::InputValue::Make', '('); n = s.str(); s.eat(','); d = s.str(); s.eat(','); t = s.type(); s.eat(','); v = s.str(); s.eat(')')
        return '(mkInputE %s %s %s %s)' % (q(n), q(d), t, q(v))
    def field(s):
        s.eat('schema::Field::Make', '('); n = s.str(); s.eat(','); d = s.str(); s.eat(','); dep = s.dep(); s.eat(','); t = s.type()
        args = s.many(s.input) if s.opt(',') else '[]'
        s.eat(')'); return '(mkFieldE %s %s %s %s %s)' % (q(n), q(d), dep, t, args)
    def enum(s):
        s.eat('{'); a = s.next(); assert a.startswith('service::s_names'); s.eat('[', 'static_cast<size_t>', '('); e = s.next().split('::'); s.eat(')', ']', ','); d = s.str(); s.eat(','); dep = s.dep(); s.eat('}')
        assert e[-2] == a[len('service::s_names'):]
        return '(mkEnumE %s %s %s %s)' % (q(e[-2]), q(e[-1]), q(d), dep)
    def loc(s): x = s.next().split('::')[-1]; return 'SchemaModel.' + LOCS.get(x, x)
    def stmts(s, details):
        out = []
        while s.i < len(s.t):
            if s.opt('auto'):
                v = s.next(); s.eat('='); k = KINDS[s.next().split('::')[1]]; s.eat('('); n = s.str(); s.eat(','); d = s.str(); s.eat(')', ';')
                out.append('SMake %s %s %s %s' % (k, q(v), q(n), q(d)))
            elif s.opt('schema'):
                s.eat('->'); f = s.next(); s.eat('(')
                if f == 'AddType':
                    n = s.str(); s.eat(',')
                    if s.opt('schema::ScalarType::Make'):
                        s.eat('('); m = s.str(); s.eat(','); d = s.str(); s.eat(')'); out.append('SAddScalar %s %s %s' % (q(n), q(m), q(d)))
                    else: out.append('SAddType %s %s' % (q(n), q(s.next())))
                elif f == 'AddDirective':
                    s.eat('schema::Directive::Make', '('); n = s.str(); s.eat(','); d = s.str(); s.eat(','); locs = s.many(s.loc); args = s.many(s.input) if s.opt(',') else '[]'; s.eat(')')
                    out.append('SDirective %s %s %s %s' % (q(n), q(d), locs, args))
                else: out.append('SOperation %s %s' % ({'AddQueryType': 'OpQuery', 'AddMutationType': 'OpMutation', 'AddSubscriptionType': 'OpSubscription'}[f], q(s.next())))
                s.eat(')', ';')
            elif re.match(r'Add\w+Details$', s.peek()):
                f = s.next(); s.eat('('); v = s.next(); s.eat(',', 'schema', ')', ';'); out += details(f, v)
            else:
                v = s.next(); s.eat('->'); f = s.next(); s.eat('(')
                g, c = {'AddEnumValues': (s.enum, 'SEnumValues'), 'AddInputValues': (s.input, 'SInputValues'), 'AddPossibleTypes': (s.type, 'SPossibleTypes'),
                        'AddInterfaces': (s.type, 'SInterfaces'), 'AddFields': (s.field, 'SFields')}[f]
                out.append('%s %s %s' % (c, q(v), s.many(g))); s.eat(')', ';')
        return out
def program(cpp, header):
    text, head = open(cpp).read(), open(header).read(); folder = os.path.dirname(cpp)
    def details(f, v):
        for g in sorted(os.listdir(folder)):
            if not g.endswith('.cpp'): continue
            t = open(os.path.join(folder, g)).read(); m = re.search(r'^void %s\(std::shared_ptr<schema::(?:ObjectType|InterfaceType)> (\w+), const' % f, t, re.M)
            if m: assert m.group(1) == v; return C(body(t, m.group(0))).stmts(details)
        raise Exception(f)
    enums = []
    for m in re.finditer(r's_names(\w+) = \{([^}]*)\}', text):
        names = re.findall(r'"(\w+)"sv', m.group(2)); e = re.search(r'enum class (?:\[\[nodiscard\]\] )?%s\s*\{([^}]*)\}' % m.group(1), head)
        values = re.findall(r'\w+', e.group(1)); assert len(names) == len(values), (names, values)
        enums.append('(%s, %s)' % (q(m.group(1)), lst('(%s, %s)' % (q(v), q(n)) for v, n in zip(values, names))))
    return 'mkProgram %s\n [%s]' % (lst(enums), ';\n  '.join(C(body(text, 'void AddTypesToSchema(')).stmts(details)))

out = ['''(** Written by tools/samples.py: the schema documents in /repo/samples and the code in /repo that schemagen generated from them, against the
    model of schemagen. *)
From Verif Require Import Cpp Value Ast ModifiersModel SchemaModel RegistryModel RegistrySpec IntroModel IntroSpec LoaderModel LoaderSpec GenModel GenSpec GenProps.
Local Open Scope string_scope.
Local Open Scope list_scope.
Definition SL : schema_location := mkLoc 0 1.
''']
for name, f in (('today', 'schema.today.graphql'), ('validation', 'schema.validation.graphql')):
    out.append('(** samples/%s *)\nDefinition %s_sdl : list sdl_def :=\n [%s].' % (f, name, ';\n  '.join(P(open(repo + '/samples/' + f).read()).doc())))
out.append('(** src/IntrospectionSchema.cpp *)\nDefinition introspection_cpp : program := %s.' % program(repo + '/src/IntrospectionSchema.cpp', repo + '/include/graphqlservice/introspection/IntrospectionSchema.h'))
progs = []
for d, base, no, sep in (('unified', 'today', 'false', 'false'), ('separate', 'today', 'false', 'true'), ('unified_nointrospection', 'today', 'true', 'false'),
                         ('separate_nointrospection', 'today', 'true', 'true'), ('validation', 'validation', 'false', 'false')):
    n = 'Validation' if d == 'validation' else 'Today'
    out.append('(** samples/%s/%sSchema.cpp *)\nDefinition %s_cpp : program := %s.' % (d, n, d, program('%s/samples/%s/%sSchema.cpp' % (repo, d, n), '%s/samples/%s/%sSchema.h' % (repo, d, n))))
    progs.append((d, base, no, sep))
out.append('''(** The model generates the code that is in the repository. *)
Example introspection_same : introspection_program = Ok introspection_cpp.
Proof. vm_compute. reflexivity. Qed.''')
for d, base, no, sep in progs:
    out.append('Example %s_same : rmap (generate %s %s false) (load false %s_sdl) = Ok %s_cpp.\nProof. vm_compute. reflexivity. Qed.' % (d, no, sep, base, d))
out.append('''(** And C46 is about these documents. *)
Example today_usual : usual today_sdl.
Proof. apply usual_b_ok. vm_compute. reflexivity. Qed.
Example validation_usual : usual validation_sdl.
Proof. apply usual_b_ok. vm_compute. reflexivity. Qed.''')
open(root + '/rocq/theories/GenSamples.v', 'w').write('\n'.join(out) + '\n')
