#!/usr/bin/env python3
"""Writes rocq/theories/SdlTexts.v: the schema documents of the repository, byte for byte."""
import os, re, sys
root = os.path.dirname(os.path.dirname(os.path.abspath(__file__)))
repo = sys.argv[1] if len(sys.argv) > 1 else '/repo'
def lit(b):
    # one Coq string per line of the text; only printable ASCII, tab and line feed occur
    lines = b.split(b'\n')
    out = []
    for i, l in enumerate(lines):
        t = l.decode('ascii')
        assert all(c == '\t' or 32 <= ord(c) < 127 for c in t), t
        parts = re.split('(\t+)', t)
        for p in parts:
            if not p: continue
            if p[0] == '\t': out.append('tabs %d' % len(p))
            else: out.append('chars "%s"' % p.replace('"', '""'))
        if i + 1 < len(lines): out.append('lf')
    lines, cur = [], ''
    for p in out:
        s = (' ++ ' if cur or lines else '') + p
        if len(cur) + len(s) > 150: lines.append(cur); cur = s
        else: cur += s
    lines.append(cur)
    return '\n  '.join(lines)
cpp = open(repo + '/src/SchemaLoader.cpp', 'rb').read()
m = re.search(rb'R"gql\((.*?)\)gql"sv', cpp, re.S)
line = cpp[:m.start(1)].count(b'\n') + 1
end = cpp[:m.end(1)].count(b'\n') + 1
out = ['(** Generated by tools/texts.py: the schema documents of the repository, byte for byte. *)',
 'From Coq Require Import String Ascii List.', 'From Verif Require Import ParseSpec.', 'Local Open Scope list_scope.', 'Local Open Scope string_scope.',
 'Import ListNotations.', 'Local Notation lf := [ascii_of_nat 10].', 'Local Notation tabs n := (repeat (ascii_of_nat 9) n).', '']
out.append('(** src/SchemaLoader.cpp:%d-%d *)\nDefinition introspection_text : text :=\n  %s.' % (line, end, lit(m.group(1))))
for n in ('today', 'validation'):
    b = open(repo + '/samples/schema.%s.graphql' % n, 'rb').read()
    out.append('(** samples/schema.%s.graphql *)\nDefinition %s_text : text :=\n  %s.' % (n, n, lit(b)))
open(root + '/rocq/theories/SdlTexts.v', 'w').write('\n'.join(out) + '\n')
