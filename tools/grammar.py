"""Transcribes the rules of include/graphqlservice/internal/Grammar.h and the selectors and error messages of
src/SyntaxTree.cpp into rocq/theories/GrammarModel.v."""
import re, textwrap
src=open('/repo/include/graphqlservice/internal/Grammar.h').read().split('\n')
def line(n):
    for i,l in enumerate(src,1):
        if re.match(r'struct %s( |$)'%n,l) and not l.rstrip().endswith(';'): return i
    raise Exception(n)
sel="""operation_type list_value object_field_name object_field object_value variable_value integer_value float_value escaped_unicode
escaped_char string_quote_character block_escape_sequence block_quote_character string_value true_keyword false_keyword
null_keyword enum_value field_name argument_name argument arguments directive_name directive directives variable scalar_name
named_type list_type nonnull_type default_value operation_definition fragment_definition schema_definition
scalar_type_definition object_type_definition interface_type_definition union_type_definition enum_type_definition
input_object_type_definition directive_definition schema_extension scalar_type_extension object_type_extension
interface_type_extension union_type_extension enum_type_extension input_object_type_extension
description object_name interface_name union_name enum_name root_operation_definition interface_type input_field_definition
input_fields_definition arguments_definition field_definition fields_definition union_type enum_value_definition
directive_location operation_type_definition
variable_name alias_name alias operation_name fragment_name field fragment_spread inline_fragment selection_set
type_condition""".split()
ast=sel[:sel.index('description')]; sch=sel[sel.index('description'):sel.index('variable_name')]; exe=sel[sel.index('variable_name'):]
# error messages
st=open('/repo/src/SyntaxTree.cpp').read()
msgs={}
for m in re.finditer(r'ast_control<(.+?)>::error_message =\s*((?:"(?:[^"\\]|\\.)*"\s*)+);',st):
    k=m.group(1); 
    t=''.join(re.findall(r'"((?:[^"\\]|\\.)*)"',m.group(2)))
    msgs[k]=t
# parse all rules from the header
text='\n'.join(src)
rules=[]
for m in re.finditer(r'struct (\w+)\s*:\s*(.*?)\n\{\n\};',text,re.S):
    rules.append((m.group(1), re.sub(r'//[^\n]*','',m.group(2)).strip()))
pos={n:text[:m.start()].count('\n')+1 for m in re.finditer(r'struct (\w+)\s*:\s*(.*?)\n\{\n\};',text,re.S) for n in [m.group(1)]}
end={m.group(1):text[:m.end()].count('\n')+1 for m in re.finditer(r'struct (\w+)\s*:\s*(.*?)\n\{\n\};',text,re.S)}
# tokenizer / parser of template expressions
def parse(s):
    toks=re.findall(r"TAO_PEGTL_KEYWORD\(\"\w+\"\)|'(?:\\.|[^'])'|[\w:]+|[<>,]",s)
    p=[0]
    def ex():
        t=toks[p[0]]; p[0]+=1
        args=None
        if p[0]<len(toks) and toks[p[0]]=='<':
            p[0]+=1; args=[]
            while True:
                args.append(ex())
                if toks[p[0]]==',': p[0]+=1; continue
                assert toks[p[0]]=='>',toks[p[0]:]; p[0]+=1; break
        return (t,args)
    r=ex(); assert p[0]==len(toks),(s,toks[p[0]:]); return r
def ch(t):
    if t.startswith("'"):
        b=t[1:-1]
        if b=='\\\\': return '"\\"%char'
        if b=='"': return '""""%char'
        return '"%s"%%char'%b
    v=int(t,16); return 'ascii_of_nat %d'%v
names=dict(rules)
def cname(k): # label key for must
    t,a=k
    if t=='one': return "one<%s>"%a[0][0]
    return t
def par(x): return '(%s)'%x if ' ' in x else x
def compound(x):
    t,a=x
    if t in('seq','sor'): return len(a)>1 or compound(a[0])
    if t=='rep': return int(a[0][0])>1 or compound(a[1])
    return t=='if_must'
def mk(op,l):
    if len(l)==1: return tr(l[0])
    o={'Seq':' >> ','Sor':' </> '}[op]
    r=[]
    for x in l:
        e=tr(x)
        r.append('(%s)'%e if compound(x) else e)
    return o.join(r)
def must(x):
    k=cname(x); m=msgs[k].replace('\\"','""')
    u='Expected http://spec.graphql.org/June2018/#'
    if m.startswith(u) and m[len(u):].isalpha(): return 'Must (expected "%s") %s'%(m[len(u):],par(tr(x)))
    return 'Must "%s" %s'%(m.replace(' ','\0'),par(tr(x)))
def tr(k):
    t,a=k
    if t.startswith('TAO_PEGTL_KEYWORD'):
        return 'keyword "%s"'%re.search(r'"(\w+)"',t).group(1)
    if t=='seq': return mk('Seq',a)
    if t=='sor': return mk('Sor',a)
    if t=='star': return 'Star %s'%par(mk('Seq',a))
    if t=='plus': return 'plus %s'%par(mk('Seq',a))
    if t=='opt': return 'opt %s'%par(mk('Seq',a))
    if t=='not_at': return 'NotAt %s'%par(mk('Seq',a))
    if t=='list': return 'list_of %s %s'%(par(tr(a[0])),par(tr(a[1])))
    if t=='must': 
        assert len(a)==1; return must(a[0])
    if t=='if_must':
        assert len(a)==2; e=tr(a[0]); return '%s >> %s'%(par(e) if ('>>' in e or '</>' in e) else e,must(a[1]))
    if t=='one': return 'one [%s]'%'; '.join(ch(x[0]) for x in a)
    if t=='range': return 'range %s %s'%(ch(a[0][0]),ch(a[1][0]))
    if t=='rep': 
        assert a[0][0].isdigit(); n=int(a[0][0]); return mk('Seq',[a[1]]*n)
    if t=='utf8::range': return 'Utf8 %d %d'%(int(a[0][0],16),int(a[1][0],16))
    if t=='until': 
        assert a==[('eolf',None)]; return 'until_eolf'
    if t in('space','identifier','xdigit','digit','ellipsis'): return 'p_'+t
    if t=='ascii::eol': return 'p_eol'
    if t=='utf8::bom': return 'p_bom'
    if t=='bof': return 'Bof'
    if t=='tao::graphqlpeg::eof': return 'Eof'
    if t in sel: return 'Ref R_%s'%t
    assert t in names,t
    return 'g_'+t
out=[]
W=out.append
W('''(** The grammar of GraphQL documents: include/graphqlservice/internal/Grammar.h, rule by rule.
    The definitions of the rules are transcribed by tools/grammar.py; the PEGTL atoms and combinators they use come
    first. *)
From Verif Require Export Peg.
Local Open Scope list_scope.
Local Open Scope string_scope.

(** One name for each rule of which some selector keeps a node (SyntaxTree.cpp:107-549). Rules that no selector
    keeps leave no trace in the tree, so they are plain definitions below. *)
Inductive rule : Type :=''')
for i in range(0,len(sel),5): W('| '+' | '.join('R_'+x for x in sel[i:i+5]))
out[-1]+='.'
W('''
Definition rule_tag (r : rule) : nat :=
  match r with''')
for i,x in enumerate(sel): W('  | R_%s => %d'%(x,i))
W('''  end.
Definition rule_eqb (a b : rule) : bool := Nat.eqb (rule_tag a) (rule_tag b).
Definition all_rules : list rule := [%s].
'''%textwrap.fill('; '.join('R_'+x for x in sel),116,subsequent_indent='  '))
W('''Lemma all_rules_complete r : nth_error all_rules (rule_tag r) = Some r.
Proof. destruct r; reflexivity. Qed.

Lemma rule_eqb_spec a b : reflect (a = b) (rule_eqb a b).
Proof.
  unfold rule_eqb. destruct (Nat.eqb_spec (rule_tag a) (rule_tag b)) as [E|E]; constructor; [|congruence].
  pose proof (all_rules_complete a) as A. rewrite E, all_rules_complete in A. injection A as ->. reflexivity.
Qed.

Notation ex := (re rule).
Notation "a >> b" := (Seq a b) (at level 61, right associativity).
Notation "a </> b" := (Sor a b) (at level 62, right associativity).

(** The error messages of ast_control, all but seven of which have this form (SyntaxTree.cpp:563-733). *)
Definition expected (what : string) : string := ("Expected http://spec.graphql.org/June2018/#" ++ what)%string.

(** PEGTL atoms. *)
Definition one (l : list ascii) : ex := Chr (fun c => existsb (Ascii.eqb c) l).           (* ascii::one<...> *)
Definition in_range (a b c : ascii) : bool := N.leb (N_of_ascii a) (N_of_ascii c) && N.leb (N_of_ascii c) (N_of_ascii b).
Definition range (a b : ascii) : ex := Chr (in_range a b).                                 (* ascii::range<a, b> *)
Definition is_digit (c : ascii) : bool := in_range "0" "9" c.
Definition is_xdigit (c : ascii) : bool := in_range "0" "9" c || in_range "a" "f" c || in_range "A" "F" c.
Definition is_alpha_ (c : ascii) : bool := in_range "a" "z" c || in_range "A" "Z" c || Ascii.eqb c "_".
Definition is_ident (c : ascii) : bool := is_alpha_ c || is_digit c.
Definition p_digit : ex := Chr is_digit.                                                   (* ascii::digit *)
Definition p_xdigit : ex := Chr is_xdigit.                                                 (* ascii::xdigit *)
Definition lf : ascii := ascii_of_nat 10.
Definition cr : ascii := ascii_of_nat 13.
Definition p_space : ex := one [" "%char; lf; cr; ascii_of_nat 9; ascii_of_nat 11; ascii_of_nat 12]. (* ascii::space *)
Definition p_identifier : ex := Seq (Chr is_alpha_) (Star (Chr is_ident)).                 (* ascii::identifier *)
Definition p_ellipsis : ex := Str ["."%char; "."%char; "."%char].                          (* ascii::ellipsis *)
Definition p_bom : ex := Utf8 65279 65279.                                                 (* utf8::bom *)
Definition p_eol : ex := Sor (Str [lf]) (Str [cr; lf]).                                    (* ascii::eol, lf_crlf *)
(** TAO_PEGTL_KEYWORD(text): the text, not followed by another letter, digit or underscore. *)
Definition keyword (w : string) : ex := Seq (Str (list_ascii_of_string w)) (NotAt (Chr is_ident)).

(** PEGTL combinators in terms of the basic ones. *)
Definition opt (a : ex) : ex := Sor a Eps.
Definition plus (a : ex) : ex := Seq a (Star a).
Definition list_of (a sep : ex) : ex := Seq a (Star (Seq sep a)).
(** until<eolf>: bytes up to and including the end of the line, or up to the end of the input. *)
Definition until_eolf : ex := Seq (Star (Seq (NotAt (Sor Eof p_eol)) (Chr (fun _ => true)))) (Sor Eof p_eol).
''')
W('(** ** The rules. *)')
def wrap(s,ind='  '):
    return '\n'.join(textwrap.wrap(s,116,initial_indent='',subsequent_indent=ind,break_long_words=False,break_on_hyphens=False)).replace('\0',' ')
body={}
for n,b in rules:
    body[n]='g_'+b if re.fullmatch(r'\w+',b) and b in names else tr(parse(b))   # struct A : B has the match of B
done=set()
def emit(n):
    if n in done: return
    done.add(n)
    for d in re.findall(r'\bg_(\w+)',body[n]): emit(d)
    W('(** Grammar.h:%d-%d *)'%(pos[n],end[n]))
    W(wrap('Definition g_%s : ex := %s.'%(n,body[n])))
for n,b in rules: emit(n)
W('''
(** The rule a name stands for. *)
Definition grammar (r : rule) : ex :=
  match r with''')
for x in sel: W('  | R_%s => g_%s'%(x,x))
W('  end.')
W('''
(** SyntaxTree.cpp:107-409 ast_selector, 411-494 schema_selector, 496-549 executable_selector. *)
Definition ast_keeps (r : rule) : bool :=
  match r with
  | %s => true
  | _ => false
  end.'''%wrap(' | '.join('R_'+x for x in ast),'    '))
W('''Definition schema_selector (r : rule) : keeps :=
  match r with
  | %s => Keep
  | _ => if ast_keeps r then Keep else Skip
  end.'''%wrap(' | '.join('R_'+x for x in sch),'    '))
W('''Definition executable_selector (r : rule) : keeps :=
  match r with
  | R_alias => FoldOne
  | %s => Keep
  | _ => if ast_keeps r then Keep else Skip
  end.'''%wrap(' | '.join('R_'+x for x in exe if x!='alias'),'    '))
open('/verif/rocq/theories/GrammarModel.v','w').write('\n'.join(out)+'\n')
