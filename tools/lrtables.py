#!/usr/bin/env python3
"""Generates rocq/theories/LRTables.v from the generated parser build/parse.y.go (the tables, verbatim)
and from the grammar build/parse.y (the right-hand sides of the rules, as a specification)."""
import re, sys
repo = sys.argv[1] if len(sys.argv) > 1 else '/repo'
src = open(repo + '/build/parse.y.go').read()
def arr(n):
    m = re.search(r'var %s = \[\.\.\.\]int\d*\{(.*?)\n\}' % n, src, re.S)
    a = src[:m.start()].count('\n') + 1
    return [int(x) for x in re.findall(r'-?\d+', m.group(1))], a, a + m.group(0).count('\n')
y = open(repo + '/build/parse.y').read().split('\n%%\n')[1]
def strip(y):
    out, d, i = '', 0, 0
    while i < len(y):
        c = y[i]
        if y.startswith('//', i): i = y.index('\n', i); continue
        if c == "'" and d == 0:
            j = y.index("'", i + 1); out += y[i:j + 1]; i = j + 1; continue
        if d > 0 and c in '"\'': i = y.index(c, i + 1) + 1; continue
        if c == '{': d += 1
        elif c == '}': d -= 1
        elif d == 0: out += c
        i += 1
    return out
toks = re.findall(r"'[^']*'|%prec|[A-Za-z_]+|[|:]", strip(y))
rules, cur, lhs, i = [], None, None, 0
while i < len(toks):
    if i + 1 < len(toks) and toks[i + 1] == ':' and re.match('[a-z]', toks[i]):
        if cur is not None: rules.append((lhs, cur))
        lhs, cur = toks[i], []; i += 2; continue
    if toks[i] == '|': rules.append((lhs, cur)); cur = []; i += 1; continue
    if toks[i] == '%prec': i += 2; continue
    cur.append(toks[i]); i += 1
rules.append((lhs, cur))
R1, R2 = arr('yyR1')[0], arr('yyR2')[0]
m = re.search(r'var yyToknames = \[\.\.\.\]string\{(.*?)\n\}', src, re.S).group(1)
tokn = {eval('"' + x + '"'): i + 1 for i, x in enumerate(re.findall(r'^\t"(.*)",$', m, re.M))}
nt = {}
for k, (l, r) in enumerate(rules):
    assert R2[k + 1] == len(r) and nt.setdefault(l, R1[k + 1]) == R1[k + 1]
ops = {'%': 'percent', '(': 'lparen', ')': 'rparen', '*': 'star', '+': 'plus', ',': 'comma', '-': 'minus', '.': 'dot',
       '/': 'slash', ':': 'colon', '<': 'lt', '=': 'assign', '>': 'gt', '[': 'lbrack', ']': 'rbrack', '{': 'lbrace',
       '}': 'rbrace', '|': 'bar', '&': 'amp', '^': 'caret', '~': 'tilde', '\\n': 'newline', ';': 'semi'}
def tname(x):
    return 't_' + ops[x[1:-1]] if x[0] == "'" else 'T' + x
def sname(x):
    return 'N_' + x if x in nt else tname(x)
o = ["(** Generated by tools/lrtables.py from build/parse.y.go and build/parse.y: do not edit. *)",
     "From Coq Require Import ZArith List.", "Import ListNotations.", "Local Open Scope Z_scope.", ""]
for n in 'yyExca yyAct yyPact yyPgo yyR1 yyR2 yyChk yyDef yyTok1 yyTok2'.split():
    l, a, b = arr(n)
    o.append("(** build/parse.y.go:%d-%d [%s]. *)" % (a, b, n))
    o.append("Definition %s : list Z :=" % n)
    lines = ["; ".join(map(str, l[k:k + 20])) for k in range(0, len(l), 20)]
    o.append("  [" + ";\n   ".join(lines) + "].")
o.append("(** build/parse.y.go:410-412 and 723. *)")
for n in ('yyPrivate', 'yyLast', 'yyFlag'):
    o.append("Definition %s : Z := %s." % (n, re.search(r'const %s = (-?\d+)' % n, src).group(1)))
o.append("(** build/parse.y.go:76-139 [yyToknames]: the internal numbers of the terminals. *)")
used = {x for l, r in rules for x in r if x not in nt}
for x, n in sorted(tokn.items(), key=lambda p: p[1]):
    if x in used: o.append("Definition %s : Z := %d." % (tname(x), n))
o.append("(** The nonterminals, numbered as in [yyR1]; symbols of the grammar are terminals (positive) or nonterminals (negative). *)")
for x, n in sorted(nt.items(), key=lambda p: p[1]):
    o.append("Definition N_%s : Z := -%d." % (x, n))
a = open(repo + '/build/parse.y').read().split('\n%%\n')[0].count('\n') + 3
o.append("(** build/parse.y:%d-1056: the rules of the grammar, numbered from 1. *)" % a)
o.append("Definition rules : list (Z * list Z) :=")
o.append("  [" + ";\n   ".join("(* %d *) (N_%s, [%s])" % (k + 1, l, "; ".join(map(sname, r))) for k, (l, r) in enumerate(rules)) + "].")
print("\n".join(o))
