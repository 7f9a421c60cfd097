#!/bin/sh
# Print the assumptions of every property theorem (needs a finished build); output: tools/axioms.txt
cd "$(dirname "$0")/../rocq" || exit 1
T=$(mktemp -d)
for f in theories/*Props.v theories/*.v; do basename "$f" .v; done | sort -u > $T/mods
: > $T/q.v
for m in $(cat $T/mods); do
  n=$(grep -oE "^(Theorem|Lemma|Corollary) C[0-9]+_[A-Za-z0-9_']+" theories/$m.v | awk '{print $2}')
  [ -z "$n" ] && continue
  echo "From Verif Require $m." >> $T/q.v
  for t in $n; do printf 'Goal True. idtac "@@ %s". exact I. Qed.\nPrint Assumptions Verif.%s.%s.\n' $t $m $t >> $T/q.v; done
done
coqtop -q -Q theories Verif -l $T/q.v < /dev/null > $T/out 2>&1
python3 ../tools/axioms.py $T/out > ../tools/axioms.txt
rm -rf $T
wc -l ../tools/axioms.txt
