(** The generated files checked into the repository: steit-csharp/tests/*.cs, src/State/LogEntry.cs, src/Builtins/Maybe.cs,
    copied byte for byte. *)
From Coq Require String.
Import String.StringSyntax.
Local Open Scope string_scope.
Notation string := String.string.

(** tests/Action.cs *)
Definition golden_Action : string :=
"using System;

using Steit.Builtins;
using Steit.Codec;
using Steit.Collections;
using Steit.State;
using Steit.State.Event;

namespace Just.To.Test {
    public sealed partial class Action : IEnumState {
        public const UInt32 RawTag = 0;
        public const UInt32 CardDrawTag = 1;
        public const UInt32 CardDiscardTag = 2;
        public const UInt32 AttackTag = 3;
        public const UInt32 SkillTag = 4;

        public Path Path { get; }

        public UInt32 Tag { get; private set; }
        public IState Variant { get; private set; }

        public Raw RawVariant { get { return this.Variant as Raw; } }
        public CardDraw CardDrawVariant { get { return this.Variant as CardDraw; } }
        public CardDiscard CardDiscardVariant { get { return this.Variant as CardDiscard; } }
        public Attack AttackVariant { get { return this.Variant as Attack; } }
        public Skill SkillVariant { get { return this.Variant as Skill; } }

        public Action(Path path = null) : this(path, 0) { }

        public Action(Path path, UInt32 tag) {
            this.Path = path ?? Path.Root;
            this.Tag = tag;

            switch (tag) {
                case 0: this.Variant = new Raw(this.Path.GetNested(0)); break;
                case 1: this.Variant = new CardDraw(this.Path.GetNested(1)); break;
                case 2: this.Variant = new CardDiscard(this.Path.GetNested(2)); break;
                case 3: this.Variant = new Attack(this.Path.GetNested(3)); break;
                case 4: this.Variant = new Skill(this.Path.GetNested(4)); break;
                default: this.Variant = new Raw(this.Path.GetNested(0)); break;
            }
        }

        public static Action NewRaw(Path path = null) { return new Action(path, 0); }
        public static Action NewCardDraw(Path path = null) { return new Action(path, 1); }
        public static Action NewCardDiscard(Path path = null) { return new Action(path, 2); }
        public static Action NewAttack(Path path = null) { return new Action(path, 3); }
        public static Action NewSkill(Path path = null) { return new Action(path, 4); }

        public static event EventHandler<VariantUpdateEventArgs<Action>> OnUpdate;

        public static void ClearUpdateHandlers() {
            OnUpdate = null;
        }

        public static Action Deserialize(IReader reader, Path path = null) {
            var action = new Action(path);
            action.Replace(reader, shouldNotify: false);
            return action;
        }

        public WireType? GetWireType(UInt32 tag) {
            switch (tag) {
                case 0: return WireType.Sized;
                case 1: return WireType.Sized;
                case 2: return WireType.Sized;
                case 3: return WireType.Sized;
                case 4: return WireType.Sized;
                default: return null;
            }
        }

        public IState GetNested(UInt32 tag) {
            return tag == this.Tag ? this.Variant : null;
        }

        public void ReplaceAt(UInt32 tag, WireType wireType, IReader reader, bool shouldNotify) {
            switch (tag) {
                case 0: this.UpdateAndNotify(0, Raw.Deserialize(reader, this.Path.GetNested(0)), shouldNotify); break;
                case 1: this.UpdateAndNotify(1, CardDraw.Deserialize(reader, this.Path.GetNested(1)), shouldNotify); break;
                case 2: this.UpdateAndNotify(2, CardDiscard.Deserialize(reader, this.Path.GetNested(2)), shouldNotify); break;
                case 3: this.UpdateAndNotify(3, Attack.Deserialize(reader, this.Path.GetNested(3)), shouldNotify); break;
                case 4: this.UpdateAndNotify(4, Skill.Deserialize(reader, this.Path.GetNested(4)), shouldNotify); break;
                default: reader.SkipToEnd(); break;
            }
        }

        public void ReplayListPush(IReader reader) { throw new NotSupportedException(); }
        public void ReplayListPop() { throw new NotSupportedException(); }
        public void ReplayMapRemove(UInt32 key) { throw new NotSupportedException(); }

        private void UpdateAndNotify(UInt32 newTag, IState newVariant, bool shouldNotify) {
            if (shouldNotify) {
                var args = new VariantUpdateEventArgs<Action>(newTag, newVariant, this.Tag, this.Variant, this);
                Action.OnUpdate?.Invoke(this, args);
            }

            this.Tag = newTag;
            this.Variant = newVariant;
        }

        // Variant (0): Raw

        public sealed partial class Raw : IState {
            public Path Path { get; }

            internal Raw(Path path = null) {
                this.Path = path ?? Path.Root;
            }

            public static void ClearUpdateHandlers() { }

            internal static Raw Deserialize(IReader reader, Path path = null) {
                var raw = new Raw(path);
                raw.Replace(reader, shouldNotify: false);
                return raw;
            }

            public WireType? GetWireType(UInt32 tag) {
                switch (tag) {
                    default: return null;
                }
            }

            public IState GetNested(UInt32 tag) {
                switch (tag) {
                    default: return null;
                }
            }

            public void ReplaceAt(UInt32 tag, WireType wireType, IReader reader, bool shouldNotify) {
                switch (tag) {
                    default: reader.SkipField(wireType); break;
                }
            }

            public void ReplayListPush(IReader reader) { throw new NotSupportedException(); }
            public void ReplayListPop() { throw new NotSupportedException(); }
            public void ReplayMapRemove(UInt32 key) { throw new NotSupportedException(); }

            private TValue MaybeNotify<TValue>(
                UInt32 tag,
                TValue newValue,
                TValue oldValue,
                EventHandler<FieldUpdateEventArgs<TValue, Raw>> handler,
                bool shouldNotify
            ) {
                if (shouldNotify) {
                    var args = new FieldUpdateEventArgs<TValue, Raw>(tag, newValue, oldValue, this);
                    handler?.Invoke(this, args);
                }

                return newValue;
            }
        }

        // Variant (1): CardDraw

        public sealed partial class CardDraw : IState {
            public Path Path { get; }

            public UInt16 PlayerIndex { get; private set; }
            public Vector<Action> Draw { get; private set; }
            public Vector<Action> PostDraw { get; private set; }

            internal CardDraw(Path path = null) {
                this.Path = path ?? Path.Root;
                this.Draw = new Vector<Action>(this.Path.GetNested(1));
                this.PostDraw = new Vector<Action>(this.Path.GetNested(2));
            }

            public static event EventHandler<FieldUpdateEventArgs<UInt16, CardDraw>> OnPlayerIndexUpdate;
            public static event EventHandler<FieldUpdateEventArgs<Vector<Action>, CardDraw>> OnDrawUpdate;
            public static event EventHandler<FieldUpdateEventArgs<Vector<Action>, CardDraw>> OnPostDrawUpdate;

            public static void ClearPlayerIndexUpdateHandlers() { OnPlayerIndexUpdate = null; }
            public static void ClearDrawUpdateHandlers() { OnDrawUpdate = null; }
            public static void ClearPostDrawUpdateHandlers() { OnPostDrawUpdate = null; }

            public static void ClearUpdateHandlers() {
                OnPlayerIndexUpdate = null;
                OnDrawUpdate = null;
                OnPostDrawUpdate = null;
            }

            internal static CardDraw Deserialize(IReader reader, Path path = null) {
                var cardDraw = new CardDraw(path);
                cardDraw.Replace(reader, shouldNotify: false);
                return cardDraw;
            }

            public WireType? GetWireType(UInt32 tag) {
                switch (tag) {
                    case 0: return WireType.Varint;
                    case 1: return WireType.Sized;
                    case 2: return WireType.Sized;
                    default: return null;
                }
            }

            public IState GetNested(UInt32 tag) {
                switch (tag) {
                    case 1: return this.Draw;
                    case 2: return this.PostDraw;
                    default: return null;
                }
            }

            public void ReplaceAt(UInt32 tag, WireType wireType, IReader reader, bool shouldNotify) {
                switch (tag) {
                    case 0: this.PlayerIndex = this.MaybeNotify(0, reader.ReadUInt16(), this.PlayerIndex, OnPlayerIndexUpdate, shouldNotify); break;
                    case 1: this.Draw = this.MaybeNotify(1, Vector<Action>.Deserialize(reader, this.Path.GetNested(1)), this.Draw, OnDrawUpdate, shouldNotify); break;
                    case 2: this.PostDraw = this.MaybeNotify(2, Vector<Action>.Deserialize(reader, this.Path.GetNested(2)), this.PostDraw, OnPostDrawUpdate, shouldNotify); break;
                    default: reader.SkipField(wireType); break;
                }
            }

            public void ReplayListPush(IReader reader) { throw new NotSupportedException(); }
            public void ReplayListPop() { throw new NotSupportedException(); }
            public void ReplayMapRemove(UInt32 key) { throw new NotSupportedException(); }

            private TValue MaybeNotify<TValue>(
                UInt32 tag,
                TValue newValue,
                TValue oldValue,
                EventHandler<FieldUpdateEventArgs<TValue, CardDraw>> handler,
                bool shouldNotify
            ) {
                if (shouldNotify) {
                    var args = new FieldUpdateEventArgs<TValue, CardDraw>(tag, newValue, oldValue, this);
                    handler?.Invoke(this, args);
                }

                return newValue;
            }
        }

        // Variant (2): CardDiscard

        public sealed partial class CardDiscard : IState {
            public Path Path { get; }

            internal CardDiscard(Path path = null) {
                this.Path = path ?? Path.Root;
            }

            public static void ClearUpdateHandlers() { }

            internal static CardDiscard Deserialize(IReader reader, Path path = null) {
                var cardDiscard = new CardDiscard(path);
                cardDiscard.Replace(reader, shouldNotify: false);
                return cardDiscard;
            }

            public WireType? GetWireType(UInt32 tag) {
                switch (tag) {
                    default: return null;
                }
            }

            public IState GetNested(UInt32 tag) {
                switch (tag) {
                    default: return null;
                }
            }

            public void ReplaceAt(UInt32 tag, WireType wireType, IReader reader, bool shouldNotify) {
                switch (tag) {
                    default: reader.SkipField(wireType); break;
                }
            }

            public void ReplayListPush(IReader reader) { throw new NotSupportedException(); }
            public void ReplayListPop() { throw new NotSupportedException(); }
            public void ReplayMapRemove(UInt32 key) { throw new NotSupportedException(); }

            private TValue MaybeNotify<TValue>(
                UInt32 tag,
                TValue newValue,
                TValue oldValue,
                EventHandler<FieldUpdateEventArgs<TValue, CardDiscard>> handler,
                bool shouldNotify
            ) {
                if (shouldNotify) {
                    var args = new FieldUpdateEventArgs<TValue, CardDiscard>(tag, newValue, oldValue, this);
                    handler?.Invoke(this, args);
                }

                return newValue;
            }
        }

        // Variant (3): Attack

        public sealed partial class Attack : IState {
            public Path Path { get; }

            public UInt16 AttackerIndex { get; private set; }
            public UInt32 CardId { get; private set; }
            public Vector<Action> BeforeAttacks { get; private set; }
            public ActionsOr<Vector<ActionsOr<Attack>>> Attacks { get; private set; }
            public Vector<Action> AfterAttacks { get; private set; }

            internal Attack(Path path = null) {
                this.Path = path ?? Path.Root;
                this.BeforeAttacks = new Vector<Action>(this.Path.GetNested(2));
                this.Attacks = new ActionsOr<Vector<ActionsOr<Attack>>>(this.Path.GetNested(3));
                this.AfterAttacks = new Vector<Action>(this.Path.GetNested(4));
            }

            public static event EventHandler<FieldUpdateEventArgs<UInt16, Attack>> OnAttackerIndexUpdate;
            public static event EventHandler<FieldUpdateEventArgs<UInt32, Attack>> OnCardIdUpdate;
            public static event EventHandler<FieldUpdateEventArgs<Vector<Action>, Attack>> OnBeforeAttacksUpdate;
            public static event EventHandler<FieldUpdateEventArgs<ActionsOr<Vector<ActionsOr<Attack>>>, Attack>> OnAttacksUpdate;
            public static event EventHandler<FieldUpdateEventArgs<Vector<Action>, Attack>> OnAfterAttacksUpdate;

            public static void ClearAttackerIndexUpdateHandlers() { OnAttackerIndexUpdate = null; }
            public static void ClearCardIdUpdateHandlers() { OnCardIdUpdate = null; }
            public static void ClearBeforeAttacksUpdateHandlers() { OnBeforeAttacksUpdate = null; }
            public static void ClearAttacksUpdateHandlers() { OnAttacksUpdate = null; }
            public static void ClearAfterAttacksUpdateHandlers() { OnAfterAttacksUpdate = null; }

            public static void ClearUpdateHandlers() {
                OnAttackerIndexUpdate = null;
                OnCardIdUpdate = null;
                OnBeforeAttacksUpdate = null;
                OnAttacksUpdate = null;
                OnAfterAttacksUpdate = null;
            }

            internal static Attack Deserialize(IReader reader, Path path = null) {
                var attack = new Attack(path);
                attack.Replace(reader, shouldNotify: false);
                return attack;
            }

            public WireType? GetWireType(UInt32 tag) {
                switch (tag) {
                    case 0: return WireType.Varint;
                    case 1: return WireType.Varint;
                    case 2: return WireType.Sized;
                    case 3: return WireType.Sized;
                    case 4: return WireType.Sized;
                    default: return null;
                }
            }

            public IState GetNested(UInt32 tag) {
                switch (tag) {
                    case 2: return this.BeforeAttacks;
                    case 3: return this.Attacks;
                    case 4: return this.AfterAttacks;
                    default: return null;
                }
            }

            public void ReplaceAt(UInt32 tag, WireType wireType, IReader reader, bool shouldNotify) {
                switch (tag) {
                    case 0: this.AttackerIndex = this.MaybeNotify(0, reader.ReadUInt16(), this.AttackerIndex, OnAttackerIndexUpdate, shouldNotify); break;
                    case 1: this.CardId = this.MaybeNotify(1, reader.ReadUInt32(), this.CardId, OnCardIdUpdate, shouldNotify); break;
                    case 2: this.BeforeAttacks = this.MaybeNotify(2, Vector<Action>.Deserialize(reader, this.Path.GetNested(2)), this.BeforeAttacks, OnBeforeAttacksUpdate, shouldNotify); break;
                    case 3: this.Attacks = this.MaybeNotify(3, ActionsOr<Vector<ActionsOr<Attack>>>.Deserialize(reader, this.Path.GetNested(3)), this.Attacks, OnAttacksUpdate, shouldNotify); break;
                    case 4: this.AfterAttacks = this.MaybeNotify(4, Vector<Action>.Deserialize(reader, this.Path.GetNested(4)), this.AfterAttacks, OnAfterAttacksUpdate, shouldNotify); break;
                    default: reader.SkipField(wireType); break;
                }
            }

            public void ReplayListPush(IReader reader) { throw new NotSupportedException(); }
            public void ReplayListPop() { throw new NotSupportedException(); }
            public void ReplayMapRemove(UInt32 key) { throw new NotSupportedException(); }

            private TValue MaybeNotify<TValue>(
                UInt32 tag,
                TValue newValue,
                TValue oldValue,
                EventHandler<FieldUpdateEventArgs<TValue, Attack>> handler,
                bool shouldNotify
            ) {
                if (shouldNotify) {
                    var args = new FieldUpdateEventArgs<TValue, Attack>(tag, newValue, oldValue, this);
                    handler?.Invoke(this, args);
                }

                return newValue;
            }
        }

        // Variant (4): Skill

        public sealed partial class Skill : IState {
            public Path Path { get; }

            public UInt16 CasterIndex { get; private set; }
            public UInt32 CardId { get; private set; }
            public Vector<Action> BeforeSkills { get; private set; }
            public ActionsOr<Vector<ActionsOr<Skill>>> Skills { get; private set; }
            public Vector<Action> AfterSkills { get; private set; }

            internal Skill(Path path = null) {
                this.Path = path ?? Path.Root;
                this.BeforeSkills = new Vector<Action>(this.Path.GetNested(2));
                this.Skills = new ActionsOr<Vector<ActionsOr<Skill>>>(this.Path.GetNested(3));
                this.AfterSkills = new Vector<Action>(this.Path.GetNested(4));
            }

            public static event EventHandler<FieldUpdateEventArgs<UInt16, Skill>> OnCasterIndexUpdate;
            public static event EventHandler<FieldUpdateEventArgs<UInt32, Skill>> OnCardIdUpdate;
            public static event EventHandler<FieldUpdateEventArgs<Vector<Action>, Skill>> OnBeforeSkillsUpdate;
            public static event EventHandler<FieldUpdateEventArgs<ActionsOr<Vector<ActionsOr<Skill>>>, Skill>> OnSkillsUpdate;
            public static event EventHandler<FieldUpdateEventArgs<Vector<Action>, Skill>> OnAfterSkillsUpdate;

            public static void ClearCasterIndexUpdateHandlers() { OnCasterIndexUpdate = null; }
            public static void ClearCardIdUpdateHandlers() { OnCardIdUpdate = null; }
            public static void ClearBeforeSkillsUpdateHandlers() { OnBeforeSkillsUpdate = null; }
            public static void ClearSkillsUpdateHandlers() { OnSkillsUpdate = null; }
            public static void ClearAfterSkillsUpdateHandlers() { OnAfterSkillsUpdate = null; }

            public static void ClearUpdateHandlers() {
                OnCasterIndexUpdate = null;
                OnCardIdUpdate = null;
                OnBeforeSkillsUpdate = null;
                OnSkillsUpdate = null;
                OnAfterSkillsUpdate = null;
            }

            internal static Skill Deserialize(IReader reader, Path path = null) {
                var skill = new Skill(path);
                skill.Replace(reader, shouldNotify: false);
                return skill;
            }

            public WireType? GetWireType(UInt32 tag) {
                switch (tag) {
                    case 0: return WireType.Varint;
                    case 1: return WireType.Varint;
                    case 2: return WireType.Sized;
                    case 3: return WireType.Sized;
                    case 4: return WireType.Sized;
                    default: return null;
                }
            }

            public IState GetNested(UInt32 tag) {
                switch (tag) {
                    case 2: return this.BeforeSkills;
                    case 3: return this.Skills;
                    case 4: return this.AfterSkills;
                    default: return null;
                }
            }

            public void ReplaceAt(UInt32 tag, WireType wireType, IReader reader, bool shouldNotify) {
                switch (tag) {
                    case 0: this.CasterIndex = this.MaybeNotify(0, reader.ReadUInt16(), this.CasterIndex, OnCasterIndexUpdate, shouldNotify); break;
                    case 1: this.CardId = this.MaybeNotify(1, reader.ReadUInt32(), this.CardId, OnCardIdUpdate, shouldNotify); break;
                    case 2: this.BeforeSkills = this.MaybeNotify(2, Vector<Action>.Deserialize(reader, this.Path.GetNested(2)), this.BeforeSkills, OnBeforeSkillsUpdate, shouldNotify); break;
                    case 3: this.Skills = this.MaybeNotify(3, ActionsOr<Vector<ActionsOr<Skill>>>.Deserialize(reader, this.Path.GetNested(3)), this.Skills, OnSkillsUpdate, shouldNotify); break;
                    case 4: this.AfterSkills = this.MaybeNotify(4, Vector<Action>.Deserialize(reader, this.Path.GetNested(4)), this.AfterSkills, OnAfterSkillsUpdate, shouldNotify); break;
                    default: reader.SkipField(wireType); break;
                }
            }

            public void ReplayListPush(IReader reader) { throw new NotSupportedException(); }
            public void ReplayListPop() { throw new NotSupportedException(); }
            public void ReplayMapRemove(UInt32 key) { throw new NotSupportedException(); }

            private TValue MaybeNotify<TValue>(
                UInt32 tag,
                TValue newValue,
                TValue oldValue,
                EventHandler<FieldUpdateEventArgs<TValue, Skill>> handler,
                bool shouldNotify
            ) {
                if (shouldNotify) {
                    var args = new FieldUpdateEventArgs<TValue, Skill>(tag, newValue, oldValue, this);
                    handler?.Invoke(this, args);
                }

                return newValue;
            }
        }
    }
}
".

(** tests/ActionsOr.cs *)
Definition golden_ActionsOr : string :=
"using System;

using Steit.Builtins;
using Steit.Codec;
using Steit.Collections;
using Steit.State;
using Steit.State.Event;

namespace Just.To.Test {
    public sealed partial class ActionsOr<T> : IEnumState {
        public const UInt32 ActionsTag = 0;
        public const UInt32 ValueTag = 1;

        public Path Path { get; }

        public UInt32 Tag { get; private set; }
        public IState Variant { get; private set; }

        public Actions ActionsVariant { get { return this.Variant as Actions; } }
        public Value ValueVariant { get { return this.Variant as Value; } }

        public ActionsOr(Path path = null) : this(path, 0) { }

        public ActionsOr(Path path, UInt32 tag) {
            StateFactory.ValidateType(typeof(T));
            this.Path = path ?? Path.Root;
            this.Tag = tag;

            switch (tag) {
                case 0: this.Variant = new Actions(this.Path.GetNested(0)); break;
                case 1: this.Variant = new Value(this.Path.GetNested(1)); break;
                default: this.Variant = new Actions(this.Path.GetNested(0)); break;
            }
        }

        public static ActionsOr NewActions(Path path = null) { return new ActionsOr(path, 0); }
        public static ActionsOr NewValue(Path path = null) { return new ActionsOr(path, 1); }

        public static event EventHandler<VariantUpdateEventArgs<ActionsOr<T>>> OnUpdate;

        public static void ClearUpdateHandlers() {
            OnUpdate = null;
        }

        public static ActionsOr<T> Deserialize(IReader reader, Path path = null) {
            var actionsOr = new ActionsOr<T>(path);
            actionsOr.Replace(reader, shouldNotify: false);
            return actionsOr;
        }

        public WireType? GetWireType(UInt32 tag) {
            switch (tag) {
                case 0: return WireType.Sized;
                case 1: return WireType.Sized;
                default: return null;
            }
        }

        public IState GetNested(UInt32 tag) {
            return tag == this.Tag ? this.Variant : null;
        }

        public void ReplaceAt(UInt32 tag, WireType wireType, IReader reader, bool shouldNotify) {
            switch (tag) {
                case 0: this.UpdateAndNotify(0, Actions.Deserialize(reader, this.Path.GetNested(0)), shouldNotify); break;
                case 1: this.UpdateAndNotify(1, Value.Deserialize(reader, this.Path.GetNested(1)), shouldNotify); break;
                default: reader.SkipToEnd(); break;
            }
        }

        public void ReplayListPush(IReader reader) { throw new NotSupportedException(); }
        public void ReplayListPop() { throw new NotSupportedException(); }
        public void ReplayMapRemove(UInt32 key) { throw new NotSupportedException(); }

        private void UpdateAndNotify(UInt32 newTag, IState newVariant, bool shouldNotify) {
            if (shouldNotify) {
                var args = new VariantUpdateEventArgs<ActionsOr<T>>(newTag, newVariant, this.Tag, this.Variant, this);
                ActionsOr<T>.OnUpdate?.Invoke(this, args);
            }

            this.Tag = newTag;
            this.Variant = newVariant;
        }

        // Variant (0): Actions

        public sealed partial class Actions : IState {
            public Path Path { get; }
            public Vector<Action> F0 { get; private set; }

            internal Actions(Path path = null) {
                this.Path = path ?? Path.Root;
                this.F0 = new Vector<Action>(this.Path.GetNested(0));
            }

            public static event EventHandler<FieldUpdateEventArgs<Vector<Action>, Actions>> OnF0Update;

            public static void ClearF0UpdateHandlers() {
                OnF0Update = null;
            }

            public static void ClearUpdateHandlers() {
                OnF0Update = null;
            }

            internal static Actions Deserialize(IReader reader, Path path = null) {
                var actions = new Actions(path);
                actions.Replace(reader, shouldNotify: false);
                return actions;
            }

            public WireType? GetWireType(UInt32 tag) {
                switch (tag) {
                    case 0: return WireType.Sized;
                    default: return null;
                }
            }

            public IState GetNested(UInt32 tag) {
                switch (tag) {
                    case 0: return this.F0;
                    default: return null;
                }
            }

            public void ReplaceAt(UInt32 tag, WireType wireType, IReader reader, bool shouldNotify) {
                switch (tag) {
                    case 0: this.F0 = this.MaybeNotify(0, Vector<Action>.Deserialize(reader, this.Path.GetNested(0)), this.F0, OnF0Update, shouldNotify); break;
                    default: reader.SkipField(wireType); break;
                }
            }

            public void ReplayListPush(IReader reader) { throw new NotSupportedException(); }
            public void ReplayListPop() { throw new NotSupportedException(); }
            public void ReplayMapRemove(UInt32 key) { throw new NotSupportedException(); }

            private TValue MaybeNotify<TValue>(
                UInt32 tag,
                TValue newValue,
                TValue oldValue,
                EventHandler<FieldUpdateEventArgs<TValue, Actions>> handler,
                bool shouldNotify
            ) {
                if (shouldNotify) {
                    var args = new FieldUpdateEventArgs<TValue, Actions>(tag, newValue, oldValue, this);
                    handler?.Invoke(this, args);
                }

                return newValue;
            }
        }

        // Variant (1): Value

        public sealed partial class Value : IState {
            public Path Path { get; }
            public T F0 { get; private set; }

            internal Value(Path path = null) {
                this.Path = path ?? Path.Root;
                this.F0 = StateFactory.Construct<T>(this.Path.GetNested(0));
            }

            public static event EventHandler<FieldUpdateEventArgs<T, Value>> OnF0Update;

            public static void ClearF0UpdateHandlers() {
                OnF0Update = null;
            }

            public static void ClearUpdateHandlers() {
                OnF0Update = null;
            }

            internal static Value Deserialize(IReader reader, Path path = null) {
                var value = new Value(path);
                value.Replace(reader, shouldNotify: false);
                return value;
            }

            public WireType? GetWireType(UInt32 tag) {
                switch (tag) {
                    case 0: return StateFactory.IsStateType(typeof(T)) ? WireType.Sized : WireType.Varint;
                    default: return null;
                }
            }

            public IState GetNested(UInt32 tag) {
                switch (tag) {
                    case 0: return this.F0 as IState;
                    default: return null;
                }
            }

            public void ReplaceAt(UInt32 tag, WireType wireType, IReader reader, bool shouldNotify) {
                switch (tag) {
                    case 0: this.F0 = this.MaybeNotify(0, StateFactory.Deserialize<T>(reader, this.Path, 0), this.F0, OnF0Update, shouldNotify); break;
                    default: reader.SkipField(wireType); break;
                }
            }

            public void ReplayListPush(IReader reader) { throw new NotSupportedException(); }
            public void ReplayListPop() { throw new NotSupportedException(); }
            public void ReplayMapRemove(UInt32 key) { throw new NotSupportedException(); }

            private TValue MaybeNotify<TValue>(
                UInt32 tag,
                TValue newValue,
                TValue oldValue,
                EventHandler<FieldUpdateEventArgs<TValue, Value>> handler,
                bool shouldNotify
            ) {
                if (shouldNotify) {
                    var args = new FieldUpdateEventArgs<TValue, Value>(tag, newValue, oldValue, this);
                    handler?.Invoke(this, args);
                }

                return newValue;
            }
        }
    }
}
".

(** tests/Attack.cs *)
Definition golden_Attack : string :=
"using System;

using Steit.Builtins;
using Steit.Codec;
using Steit.Collections;
using Steit.State;
using Steit.State.Event;

namespace Just.To.Test {
    public sealed partial class Attack : IState {
        public Path Path { get; }

        public UInt16 TargetIndex { get; private set; }
        public Vector<Action> BeforeHits { get; private set; }
        public ActionsOr<Vector<ActionsOr<Hit>>> Hits { get; private set; }
        public Vector<Action> AfterHits { get; private set; }

        public Attack(Path path = null) {
            this.Path = path ?? Path.Root;
            this.BeforeHits = new Vector<Action>(this.Path.GetNested(1));
            this.Hits = new ActionsOr<Vector<ActionsOr<Hit>>>(this.Path.GetNested(2));
            this.AfterHits = new Vector<Action>(this.Path.GetNested(3));
        }

        public static event EventHandler<FieldUpdateEventArgs<UInt16, Attack>> OnTargetIndexUpdate;
        public static event EventHandler<FieldUpdateEventArgs<Vector<Action>, Attack>> OnBeforeHitsUpdate;
        public static event EventHandler<FieldUpdateEventArgs<ActionsOr<Vector<ActionsOr<Hit>>>, Attack>> OnHitsUpdate;
        public static event EventHandler<FieldUpdateEventArgs<Vector<Action>, Attack>> OnAfterHitsUpdate;

        public static void ClearTargetIndexUpdateHandlers() { OnTargetIndexUpdate = null; }
        public static void ClearBeforeHitsUpdateHandlers() { OnBeforeHitsUpdate = null; }
        public static void ClearHitsUpdateHandlers() { OnHitsUpdate = null; }
        public static void ClearAfterHitsUpdateHandlers() { OnAfterHitsUpdate = null; }

        public static void ClearUpdateHandlers() {
            OnTargetIndexUpdate = null;
            OnBeforeHitsUpdate = null;
            OnHitsUpdate = null;
            OnAfterHitsUpdate = null;
        }

        public static Attack Deserialize(IReader reader, Path path = null) {
            var attack = new Attack(path);
            attack.Replace(reader, shouldNotify: false);
            return attack;
        }

        public WireType? GetWireType(UInt32 tag) {
            switch (tag) {
                case 0: return WireType.Varint;
                case 1: return WireType.Sized;
                case 2: return WireType.Sized;
                case 3: return WireType.Sized;
                default: return null;
            }
        }

        public IState GetNested(UInt32 tag) {
            switch (tag) {
                case 1: return this.BeforeHits;
                case 2: return this.Hits;
                case 3: return this.AfterHits;
                default: return null;
            }
        }

        public void ReplaceAt(UInt32 tag, WireType wireType, IReader reader, bool shouldNotify) {
            switch (tag) {
                case 0: this.TargetIndex = this.MaybeNotify(0, reader.ReadUInt16(), this.TargetIndex, OnTargetIndexUpdate, shouldNotify); break;
                case 1: this.BeforeHits = this.MaybeNotify(1, Vector<Action>.Deserialize(reader, this.Path.GetNested(1)), this.BeforeHits, OnBeforeHitsUpdate, shouldNotify); break;
                case 2: this.Hits = this.MaybeNotify(2, ActionsOr<Vector<ActionsOr<Hit>>>.Deserialize(reader, this.Path.GetNested(2)), this.Hits, OnHitsUpdate, shouldNotify); break;
                case 3: this.AfterHits = this.MaybeNotify(3, Vector<Action>.Deserialize(reader, this.Path.GetNested(3)), this.AfterHits, OnAfterHitsUpdate, shouldNotify); break;
                default: reader.SkipField(wireType); break;
            }
        }

        public void ReplayListPush(IReader reader) { throw new NotSupportedException(); }
        public void ReplayListPop() { throw new NotSupportedException(); }
        public void ReplayMapRemove(UInt32 key) { throw new NotSupportedException(); }

        private TValue MaybeNotify<TValue>(
            UInt32 tag,
            TValue newValue,
            TValue oldValue,
            EventHandler<FieldUpdateEventArgs<TValue, Attack>> handler,
            bool shouldNotify
        ) {
            if (shouldNotify) {
                var args = new FieldUpdateEventArgs<TValue, Attack>(tag, newValue, oldValue, this);
                handler?.Invoke(this, args);
            }

            return newValue;
        }
    }
}
".

(** tests/Hello.cs *)
Definition golden_Hello : string :=
"using System;

using Steit.Builtins;
using Steit.Codec;
using Steit.Collections;
using Steit.State;
using Steit.State.Event;

namespace Just.To.Test {
    public sealed partial class Hello : IState {
        public Path Path { get; }

        public StateList<Int32> Numbers { get; private set; }
        public Vector<Int32> Others { get; private set; }

        public Hello(Path path = null) {
            this.Path = path ?? Path.Root;
            this.Numbers = new StateList<Int32>(this.Path.GetNested(0));
            this.Others = new Vector<Int32>(this.Path.GetNested(1));
        }

        public static event EventHandler<FieldUpdateEventArgs<StateList<Int32>, Hello>> OnNumbersUpdate;
        public static event EventHandler<FieldUpdateEventArgs<Vector<Int32>, Hello>> OnOthersUpdate;

        public static void ClearNumbersUpdateHandlers() { OnNumbersUpdate = null; }
        public static void ClearOthersUpdateHandlers() { OnOthersUpdate = null; }

        public static void ClearUpdateHandlers() {
            OnNumbersUpdate = null;
            OnOthersUpdate = null;
        }

        public static Hello Deserialize(IReader reader, Path path = null) {
            var hello = new Hello(path);
            hello.Replace(reader, shouldNotify: false);
            return hello;
        }

        public WireType? GetWireType(UInt32 tag) {
            switch (tag) {
                case 0: return WireType.Sized;
                case 1: return WireType.Sized;
                default: return null;
            }
        }

        public IState GetNested(UInt32 tag) {
            switch (tag) {
                case 0: return this.Numbers;
                case 1: return this.Others;
                default: return null;
            }
        }

        public void ReplaceAt(UInt32 tag, WireType wireType, IReader reader, bool shouldNotify) {
            switch (tag) {
                case 0: this.Numbers = this.MaybeNotify(0, StateList<Int32>.Deserialize(reader, this.Path.GetNested(0)), this.Numbers, OnNumbersUpdate, shouldNotify); break;
                case 1: this.Others = this.MaybeNotify(1, Vector<Int32>.Deserialize(reader, this.Path.GetNested(1)), this.Others, OnOthersUpdate, shouldNotify); break;
                default: reader.SkipField(wireType); break;
            }
        }

        public void ReplayListPush(IReader reader) { throw new NotSupportedException(); }
        public void ReplayListPop() { throw new NotSupportedException(); }
        public void ReplayMapRemove(UInt32 key) { throw new NotSupportedException(); }

        private TValue MaybeNotify<TValue>(
            UInt32 tag,
            TValue newValue,
            TValue oldValue,
            EventHandler<FieldUpdateEventArgs<TValue, Hello>> handler,
            bool shouldNotify
        ) {
            if (shouldNotify) {
                var args = new FieldUpdateEventArgs<TValue, Hello>(tag, newValue, oldValue, this);
                handler?.Invoke(this, args);
            }

            return newValue;
        }
    }
}
".

(** tests/Hit.cs *)
Definition golden_Hit : string :=
"using System;

using Steit.Builtins;
using Steit.Codec;
using Steit.Collections;
using Steit.State;
using Steit.State.Event;

namespace Just.To.Test {
    public sealed partial class Hit : IState {
        public Path Path { get; }

        public Boolean IsMiss { get; private set; }
        public Vector<Action> PreDamage { get; private set; }
        public Vector<Action> Damage { get; private set; }
        public Vector<Action> PostDamage { get; private set; }

        public Hit(Path path = null) {
            this.Path = path ?? Path.Root;
            this.PreDamage = new Vector<Action>(this.Path.GetNested(1));
            this.Damage = new Vector<Action>(this.Path.GetNested(2));
            this.PostDamage = new Vector<Action>(this.Path.GetNested(3));
        }

        public static event EventHandler<FieldUpdateEventArgs<Boolean, Hit>> OnIsMissUpdate;
        public static event EventHandler<FieldUpdateEventArgs<Vector<Action>, Hit>> OnPreDamageUpdate;
        public static event EventHandler<FieldUpdateEventArgs<Vector<Action>, Hit>> OnDamageUpdate;
        public static event EventHandler<FieldUpdateEventArgs<Vector<Action>, Hit>> OnPostDamageUpdate;

        public static void ClearIsMissUpdateHandlers() { OnIsMissUpdate = null; }
        public static void ClearPreDamageUpdateHandlers() { OnPreDamageUpdate = null; }
        public static void ClearDamageUpdateHandlers() { OnDamageUpdate = null; }
        public static void ClearPostDamageUpdateHandlers() { OnPostDamageUpdate = null; }

        public static void ClearUpdateHandlers() {
            OnIsMissUpdate = null;
            OnPreDamageUpdate = null;
            OnDamageUpdate = null;
            OnPostDamageUpdate = null;
        }

        public static Hit Deserialize(IReader reader, Path path = null) {
            var hit = new Hit(path);
            hit.Replace(reader, shouldNotify: false);
            return hit;
        }

        public WireType? GetWireType(UInt32 tag) {
            switch (tag) {
                case 0: return WireType.Varint;
                case 1: return WireType.Sized;
                case 2: return WireType.Sized;
                case 3: return WireType.Sized;
                default: return null;
            }
        }

        public IState GetNested(UInt32 tag) {
            switch (tag) {
                case 1: return this.PreDamage;
                case 2: return this.Damage;
                case 3: return this.PostDamage;
                default: return null;
            }
        }

        public void ReplaceAt(UInt32 tag, WireType wireType, IReader reader, bool shouldNotify) {
            switch (tag) {
                case 0: this.IsMiss = this.MaybeNotify(0, reader.ReadBoolean(), this.IsMiss, OnIsMissUpdate, shouldNotify); break;
                case 1: this.PreDamage = this.MaybeNotify(1, Vector<Action>.Deserialize(reader, this.Path.GetNested(1)), this.PreDamage, OnPreDamageUpdate, shouldNotify); break;
                case 2: this.Damage = this.MaybeNotify(2, Vector<Action>.Deserialize(reader, this.Path.GetNested(2)), this.Damage, OnDamageUpdate, shouldNotify); break;
                case 3: this.PostDamage = this.MaybeNotify(3, Vector<Action>.Deserialize(reader, this.Path.GetNested(3)), this.PostDamage, OnPostDamageUpdate, shouldNotify); break;
                default: reader.SkipField(wireType); break;
            }
        }

        public void ReplayListPush(IReader reader) { throw new NotSupportedException(); }
        public void ReplayListPop() { throw new NotSupportedException(); }
        public void ReplayMapRemove(UInt32 key) { throw new NotSupportedException(); }

        private TValue MaybeNotify<TValue>(
            UInt32 tag,
            TValue newValue,
            TValue oldValue,
            EventHandler<FieldUpdateEventArgs<TValue, Hit>> handler,
            bool shouldNotify
        ) {
            if (shouldNotify) {
                var args = new FieldUpdateEventArgs<TValue, Hit>(tag, newValue, oldValue, this);
                handler?.Invoke(this, args);
            }

            return newValue;
        }
    }
}
".

(** tests/Inner.cs *)
Definition golden_Inner : string :=
"using System;

using Steit.Builtins;
using Steit.Codec;
using Steit.Collections;
using Steit.State;
using Steit.State.Event;

namespace Just.To.Test {
    public sealed partial class Inner : IState {
        public Path Path { get; }

        public Int32 Foo { get; private set; }
        public Boolean Bar { get; private set; }

        public Inner(Path path = null) {
            this.Path = path ?? Path.Root;
        }

        public static event EventHandler<FieldUpdateEventArgs<Int32, Inner>> OnFooUpdate;
        public static event EventHandler<FieldUpdateEventArgs<Boolean, Inner>> OnBarUpdate;

        public static void ClearFooUpdateHandlers() { OnFooUpdate = null; }
        public static void ClearBarUpdateHandlers() { OnBarUpdate = null; }

        public static void ClearUpdateHandlers() {
            OnFooUpdate = null;
            OnBarUpdate = null;
        }

        public static Inner Deserialize(IReader reader, Path path = null) {
            var inner = new Inner(path);
            inner.Replace(reader, shouldNotify: false);
            return inner;
        }

        public WireType? GetWireType(UInt32 tag) {
            switch (tag) {
                case 0: return WireType.Varint;
                case 1: return WireType.Varint;
                default: return null;
            }
        }

        public IState GetNested(UInt32 tag) {
            switch (tag) {
                default: return null;
            }
        }

        public void ReplaceAt(UInt32 tag, WireType wireType, IReader reader, bool shouldNotify) {
            switch (tag) {
                case 0: this.Foo = this.MaybeNotify(0, reader.ReadInt32(), this.Foo, OnFooUpdate, shouldNotify); break;
                case 1: this.Bar = this.MaybeNotify(1, reader.ReadBoolean(), this.Bar, OnBarUpdate, shouldNotify); break;
                default: reader.SkipField(wireType); break;
            }
        }

        public void ReplayListPush(IReader reader) { throw new NotSupportedException(); }
        public void ReplayListPop() { throw new NotSupportedException(); }
        public void ReplayMapRemove(UInt32 key) { throw new NotSupportedException(); }

        private TValue MaybeNotify<TValue>(
            UInt32 tag,
            TValue newValue,
            TValue oldValue,
            EventHandler<FieldUpdateEventArgs<TValue, Inner>> handler,
            bool shouldNotify
        ) {
            if (shouldNotify) {
                var args = new FieldUpdateEventArgs<TValue, Inner>(tag, newValue, oldValue, this);
                handler?.Invoke(this, args);
            }

            return newValue;
        }
    }
}
".

(** tests/Multicase.cs *)
Definition golden_Multicase : string :=
"using System;

using Steit.Builtins;
using Steit.Codec;
using Steit.Collections;
using Steit.State;
using Steit.State.Event;

namespace Just.To.Test {
    public sealed partial class Multicase : IEnumState {
        public const UInt32 FirstCaseTag = 0;
        public const UInt32 SecondCaseTag = 1;

        public Path Path { get; }

        public UInt32 Tag { get; private set; }
        public IState Variant { get; private set; }

        public FirstCase FirstCaseVariant { get { return this.Variant as FirstCase; } }
        public SecondCase SecondCaseVariant { get { return this.Variant as SecondCase; } }

        public Multicase(Path path = null) : this(path, 0) { }

        public Multicase(Path path, UInt32 tag) {
            this.Path = path ?? Path.Root;
            this.Tag = tag;

            switch (tag) {
                case 0: this.Variant = new FirstCase(this.Path.GetNested(0)); break;
                case 1: this.Variant = new SecondCase(this.Path.GetNested(1)); break;
                default: this.Variant = new FirstCase(this.Path.GetNested(0)); break;
            }
        }

        public static Multicase NewFirstCase(Path path = null) { return new Multicase(path, 0); }
        public static Multicase NewSecondCase(Path path = null) { return new Multicase(path, 1); }

        public static event EventHandler<VariantUpdateEventArgs<Multicase>> OnUpdate;

        public static void ClearUpdateHandlers() {
            OnUpdate = null;
        }

        public static Multicase Deserialize(IReader reader, Path path = null) {
            var multicase = new Multicase(path);
            multicase.Replace(reader, shouldNotify: false);
            return multicase;
        }

        public WireType? GetWireType(UInt32 tag) {
            switch (tag) {
                case 0: return WireType.Sized;
                case 1: return WireType.Sized;
                default: return null;
            }
        }

        public IState GetNested(UInt32 tag) {
            return tag == this.Tag ? this.Variant : null;
        }

        public void ReplaceAt(UInt32 tag, WireType wireType, IReader reader, bool shouldNotify) {
            switch (tag) {
                case 0: this.UpdateAndNotify(0, FirstCase.Deserialize(reader, this.Path.GetNested(0)), shouldNotify); break;
                case 1: this.UpdateAndNotify(1, SecondCase.Deserialize(reader, this.Path.GetNested(1)), shouldNotify); break;
                default: reader.SkipToEnd(); break;
            }
        }

        public void ReplayListPush(IReader reader) { throw new NotSupportedException(); }
        public void ReplayListPop() { throw new NotSupportedException(); }
        public void ReplayMapRemove(UInt32 key) { throw new NotSupportedException(); }

        private void UpdateAndNotify(UInt32 newTag, IState newVariant, bool shouldNotify) {
            if (shouldNotify) {
                var args = new VariantUpdateEventArgs<Multicase>(newTag, newVariant, this.Tag, this.Variant, this);
                Multicase.OnUpdate?.Invoke(this, args);
            }

            this.Tag = newTag;
            this.Variant = newVariant;
        }

        // Variant (0): FirstCase

        public sealed partial class FirstCase : IState {
            public Path Path { get; }

            public Int32 Counter { get; private set; }
            public Boolean Enabled { get; private set; }

            internal FirstCase(Path path = null) {
                this.Path = path ?? Path.Root;
            }

            public static event EventHandler<FieldUpdateEventArgs<Int32, FirstCase>> OnCounterUpdate;
            public static event EventHandler<FieldUpdateEventArgs<Boolean, FirstCase>> OnEnabledUpdate;

            public static void ClearCounterUpdateHandlers() { OnCounterUpdate = null; }
            public static void ClearEnabledUpdateHandlers() { OnEnabledUpdate = null; }

            public static void ClearUpdateHandlers() {
                OnCounterUpdate = null;
                OnEnabledUpdate = null;
            }

            internal static FirstCase Deserialize(IReader reader, Path path = null) {
                var firstCase = new FirstCase(path);
                firstCase.Replace(reader, shouldNotify: false);
                return firstCase;
            }

            public WireType? GetWireType(UInt32 tag) {
                switch (tag) {
                    case 0: return WireType.Varint;
                    case 1: return WireType.Varint;
                    default: return null;
                }
            }

            public IState GetNested(UInt32 tag) {
                switch (tag) {
                    default: return null;
                }
            }

            public void ReplaceAt(UInt32 tag, WireType wireType, IReader reader, bool shouldNotify) {
                switch (tag) {
                    case 0: this.Counter = this.MaybeNotify(0, reader.ReadInt32(), this.Counter, OnCounterUpdate, shouldNotify); break;
                    case 1: this.Enabled = this.MaybeNotify(1, reader.ReadBoolean(), this.Enabled, OnEnabledUpdate, shouldNotify); break;
                    default: reader.SkipField(wireType); break;
                }
            }

            public void ReplayListPush(IReader reader) { throw new NotSupportedException(); }
            public void ReplayListPop() { throw new NotSupportedException(); }
            public void ReplayMapRemove(UInt32 key) { throw new NotSupportedException(); }

            private TValue MaybeNotify<TValue>(
                UInt32 tag,
                TValue newValue,
                TValue oldValue,
                EventHandler<FieldUpdateEventArgs<TValue, FirstCase>> handler,
                bool shouldNotify
            ) {
                if (shouldNotify) {
                    var args = new FieldUpdateEventArgs<TValue, FirstCase>(tag, newValue, oldValue, this);
                    handler?.Invoke(this, args);
                }

                return newValue;
            }
        }

        // Variant (1): SecondCase

        public sealed partial class SecondCase : IState {
            public Path Path { get; }

            public Int32 Counter { get; private set; }
            public Boolean Enabled { get; private set; }

            internal SecondCase(Path path = null) {
                this.Path = path ?? Path.Root;
            }

            public static event EventHandler<FieldUpdateEventArgs<Int32, SecondCase>> OnCounterUpdate;
            public static event EventHandler<FieldUpdateEventArgs<Boolean, SecondCase>> OnEnabledUpdate;

            public static void ClearCounterUpdateHandlers() { OnCounterUpdate = null; }
            public static void ClearEnabledUpdateHandlers() { OnEnabledUpdate = null; }

            public static void ClearUpdateHandlers() {
                OnCounterUpdate = null;
                OnEnabledUpdate = null;
            }

            internal static SecondCase Deserialize(IReader reader, Path path = null) {
                var secondCase = new SecondCase(path);
                secondCase.Replace(reader, shouldNotify: false);
                return secondCase;
            }

            public WireType? GetWireType(UInt32 tag) {
                switch (tag) {
                    case 0: return WireType.Varint;
                    case 1: return WireType.Varint;
                    default: return null;
                }
            }

            public IState GetNested(UInt32 tag) {
                switch (tag) {
                    default: return null;
                }
            }

            public void ReplaceAt(UInt32 tag, WireType wireType, IReader reader, bool shouldNotify) {
                switch (tag) {
                    case 0: this.Counter = this.MaybeNotify(0, reader.ReadInt32(), this.Counter, OnCounterUpdate, shouldNotify); break;
                    case 1: this.Enabled = this.MaybeNotify(1, reader.ReadBoolean(), this.Enabled, OnEnabledUpdate, shouldNotify); break;
                    default: reader.SkipField(wireType); break;
                }
            }

            public void ReplayListPush(IReader reader) { throw new NotSupportedException(); }
            public void ReplayListPop() { throw new NotSupportedException(); }
            public void ReplayMapRemove(UInt32 key) { throw new NotSupportedException(); }

            private TValue MaybeNotify<TValue>(
                UInt32 tag,
                TValue newValue,
                TValue oldValue,
                EventHandler<FieldUpdateEventArgs<TValue, SecondCase>> handler,
                bool shouldNotify
            ) {
                if (shouldNotify) {
                    var args = new FieldUpdateEventArgs<TValue, SecondCase>(tag, newValue, oldValue, this);
                    handler?.Invoke(this, args);
                }

                return newValue;
            }
        }
    }
}
".

(** tests/OldAction.cs *)
Definition golden_OldAction : string :=
"using System;

using Steit.Builtins;
using Steit.Codec;
using Steit.Collections;
using Steit.State;
using Steit.State.Event;

namespace Just.To.Test {
    public sealed partial class OldAction : IEnumState {
        public const UInt32 RawTag = 0;
        public const UInt32 AttackTag = 1;

        public Path Path { get; }

        public UInt32 Tag { get; private set; }
        public IState Variant { get; private set; }

        public Raw RawVariant { get { return this.Variant as Raw; } }
        public Attack AttackVariant { get { return this.Variant as Attack; } }

        public OldAction(Path path = null) : this(path, 0) { }

        public OldAction(Path path, UInt32 tag) {
            this.Path = path ?? Path.Root;
            this.Tag = tag;

            switch (tag) {
                case 0: this.Variant = new Raw(this.Path.GetNested(0)); break;
                case 1: this.Variant = new Attack(this.Path.GetNested(1)); break;
                default: this.Variant = new Raw(this.Path.GetNested(0)); break;
            }
        }

        public static OldAction NewRaw(Path path = null) { return new OldAction(path, 0); }
        public static OldAction NewAttack(Path path = null) { return new OldAction(path, 1); }

        public static event EventHandler<VariantUpdateEventArgs<OldAction>> OnUpdate;

        public static void ClearUpdateHandlers() {
            OnUpdate = null;
        }

        public static OldAction Deserialize(IReader reader, Path path = null) {
            var oldAction = new OldAction(path);
            oldAction.Replace(reader, shouldNotify: false);
            return oldAction;
        }

        public WireType? GetWireType(UInt32 tag) {
            switch (tag) {
                case 0: return WireType.Sized;
                case 1: return WireType.Sized;
                default: return null;
            }
        }

        public IState GetNested(UInt32 tag) {
            return tag == this.Tag ? this.Variant : null;
        }

        public void ReplaceAt(UInt32 tag, WireType wireType, IReader reader, bool shouldNotify) {
            switch (tag) {
                case 0: this.UpdateAndNotify(0, Raw.Deserialize(reader, this.Path.GetNested(0)), shouldNotify); break;
                case 1: this.UpdateAndNotify(1, Attack.Deserialize(reader, this.Path.GetNested(1)), shouldNotify); break;
                default: reader.SkipToEnd(); break;
            }
        }

        public void ReplayListPush(IReader reader) { throw new NotSupportedException(); }
        public void ReplayListPop() { throw new NotSupportedException(); }
        public void ReplayMapRemove(UInt32 key) { throw new NotSupportedException(); }

        private void UpdateAndNotify(UInt32 newTag, IState newVariant, bool shouldNotify) {
            if (shouldNotify) {
                var args = new VariantUpdateEventArgs<OldAction>(newTag, newVariant, this.Tag, this.Variant, this);
                OldAction.OnUpdate?.Invoke(this, args);
            }

            this.Tag = newTag;
            this.Variant = newVariant;
        }

        // Variant (0): Raw

        public sealed partial class Raw : IState {
            public Path Path { get; }
            public StateList<Byte> LogEntries { get; private set; }

            internal Raw(Path path = null) {
                this.Path = path ?? Path.Root;
                this.LogEntries = new StateList<Byte>(this.Path.GetNested(0));
            }

            public static event EventHandler<FieldUpdateEventArgs<StateList<Byte>, Raw>> OnLogEntriesUpdate;

            public static void ClearLogEntriesUpdateHandlers() {
                OnLogEntriesUpdate = null;
            }

            public static void ClearUpdateHandlers() {
                OnLogEntriesUpdate = null;
            }

            internal static Raw Deserialize(IReader reader, Path path = null) {
                var raw = new Raw(path);
                raw.Replace(reader, shouldNotify: false);
                return raw;
            }

            public WireType? GetWireType(UInt32 tag) {
                switch (tag) {
                    case 0: return WireType.Sized;
                    default: return null;
                }
            }

            public IState GetNested(UInt32 tag) {
                switch (tag) {
                    case 0: return this.LogEntries;
                    default: return null;
                }
            }

            public void ReplaceAt(UInt32 tag, WireType wireType, IReader reader, bool shouldNotify) {
                switch (tag) {
                    case 0: this.LogEntries = this.MaybeNotify(0, StateList<Byte>.Deserialize(reader, this.Path.GetNested(0)), this.LogEntries, OnLogEntriesUpdate, shouldNotify); break;
                    default: reader.SkipField(wireType); break;
                }
            }

            public void ReplayListPush(IReader reader) { throw new NotSupportedException(); }
            public void ReplayListPop() { throw new NotSupportedException(); }
            public void ReplayMapRemove(UInt32 key) { throw new NotSupportedException(); }

            private TValue MaybeNotify<TValue>(
                UInt32 tag,
                TValue newValue,
                TValue oldValue,
                EventHandler<FieldUpdateEventArgs<TValue, Raw>> handler,
                bool shouldNotify
            ) {
                if (shouldNotify) {
                    var args = new FieldUpdateEventArgs<TValue, Raw>(tag, newValue, oldValue, this);
                    handler?.Invoke(this, args);
                }

                return newValue;
            }
        }

        // Variant (1): Attack

        public sealed partial class Attack : IState {
            public Path Path { get; }

            public Byte Attacker { get; private set; }
            public Byte Defender { get; private set; }
            public StateList<OldHit> Hits { get; private set; }

            internal Attack(Path path = null) {
                this.Path = path ?? Path.Root;
                this.Hits = new StateList<OldHit>(this.Path.GetNested(2));
            }

            public static event EventHandler<FieldUpdateEventArgs<Byte, Attack>> OnAttackerUpdate;
            public static event EventHandler<FieldUpdateEventArgs<Byte, Attack>> OnDefenderUpdate;
            public static event EventHandler<FieldUpdateEventArgs<StateList<OldHit>, Attack>> OnHitsUpdate;

            public static void ClearAttackerUpdateHandlers() { OnAttackerUpdate = null; }
            public static void ClearDefenderUpdateHandlers() { OnDefenderUpdate = null; }
            public static void ClearHitsUpdateHandlers() { OnHitsUpdate = null; }

            public static void ClearUpdateHandlers() {
                OnAttackerUpdate = null;
                OnDefenderUpdate = null;
                OnHitsUpdate = null;
            }

            internal static Attack Deserialize(IReader reader, Path path = null) {
                var attack = new Attack(path);
                attack.Replace(reader, shouldNotify: false);
                return attack;
            }

            public WireType? GetWireType(UInt32 tag) {
                switch (tag) {
                    case 0: return WireType.Varint;
                    case 1: return WireType.Varint;
                    case 2: return WireType.Sized;
                    default: return null;
                }
            }

            public IState GetNested(UInt32 tag) {
                switch (tag) {
                    case 2: return this.Hits;
                    default: return null;
                }
            }

            public void ReplaceAt(UInt32 tag, WireType wireType, IReader reader, bool shouldNotify) {
                switch (tag) {
                    case 0: this.Attacker = this.MaybeNotify(0, reader.ReadByte(), this.Attacker, OnAttackerUpdate, shouldNotify); break;
                    case 1: this.Defender = this.MaybeNotify(1, reader.ReadByte(), this.Defender, OnDefenderUpdate, shouldNotify); break;
                    case 2: this.Hits = this.MaybeNotify(2, StateList<OldHit>.Deserialize(reader, this.Path.GetNested(2)), this.Hits, OnHitsUpdate, shouldNotify); break;
                    default: reader.SkipField(wireType); break;
                }
            }

            public void ReplayListPush(IReader reader) { throw new NotSupportedException(); }
            public void ReplayListPop() { throw new NotSupportedException(); }
            public void ReplayMapRemove(UInt32 key) { throw new NotSupportedException(); }

            private TValue MaybeNotify<TValue>(
                UInt32 tag,
                TValue newValue,
                TValue oldValue,
                EventHandler<FieldUpdateEventArgs<TValue, Attack>> handler,
                bool shouldNotify
            ) {
                if (shouldNotify) {
                    var args = new FieldUpdateEventArgs<TValue, Attack>(tag, newValue, oldValue, this);
                    handler?.Invoke(this, args);
                }

                return newValue;
            }
        }
    }
}
".

(** tests/OldHit.cs *)
Definition golden_OldHit : string :=
"using System;

using Steit.Builtins;
using Steit.Codec;
using Steit.Collections;
using Steit.State;
using Steit.State.Event;

namespace Just.To.Test {
    public sealed partial class OldHit : IState {
        public Path Path { get; }

        public OldAction BeforeAttacking { get; private set; }
        public OldAction BeforeDamaging { get; private set; }
        public OldAction Damaging { get; private set; }
        public OldAction AfterDamaging { get; private set; }
        public OldAction AfterAttacking { get; private set; }
        public Int32 Dummy { get; private set; }

        public OldHit(Path path = null) {
            this.Path = path ?? Path.Root;
            this.BeforeAttacking = new OldAction(this.Path.GetNested(0));
            this.BeforeDamaging = new OldAction(this.Path.GetNested(1));
            this.Damaging = new OldAction(this.Path.GetNested(2));
            this.AfterDamaging = new OldAction(this.Path.GetNested(3));
            this.AfterAttacking = new OldAction(this.Path.GetNested(4));
        }

        public static event EventHandler<FieldUpdateEventArgs<OldAction, OldHit>> OnBeforeAttackingUpdate;
        public static event EventHandler<FieldUpdateEventArgs<OldAction, OldHit>> OnBeforeDamagingUpdate;
        public static event EventHandler<FieldUpdateEventArgs<OldAction, OldHit>> OnDamagingUpdate;
        public static event EventHandler<FieldUpdateEventArgs<OldAction, OldHit>> OnAfterDamagingUpdate;
        public static event EventHandler<FieldUpdateEventArgs<OldAction, OldHit>> OnAfterAttackingUpdate;
        public static event EventHandler<FieldUpdateEventArgs<Int32, OldHit>> OnDummyUpdate;

        public static void ClearBeforeAttackingUpdateHandlers() { OnBeforeAttackingUpdate = null; }
        public static void ClearBeforeDamagingUpdateHandlers() { OnBeforeDamagingUpdate = null; }
        public static void ClearDamagingUpdateHandlers() { OnDamagingUpdate = null; }
        public static void ClearAfterDamagingUpdateHandlers() { OnAfterDamagingUpdate = null; }
        public static void ClearAfterAttackingUpdateHandlers() { OnAfterAttackingUpdate = null; }
        public static void ClearDummyUpdateHandlers() { OnDummyUpdate = null; }

        public static void ClearUpdateHandlers() {
            OnBeforeAttackingUpdate = null;
            OnBeforeDamagingUpdate = null;
            OnDamagingUpdate = null;
            OnAfterDamagingUpdate = null;
            OnAfterAttackingUpdate = null;
            OnDummyUpdate = null;
        }

        public static OldHit Deserialize(IReader reader, Path path = null) {
            var oldHit = new OldHit(path);
            oldHit.Replace(reader, shouldNotify: false);
            return oldHit;
        }

        public WireType? GetWireType(UInt32 tag) {
            switch (tag) {
                case 0: return WireType.Sized;
                case 1: return WireType.Sized;
                case 2: return WireType.Sized;
                case 3: return WireType.Sized;
                case 4: return WireType.Sized;
                case 5: return WireType.Varint;
                default: return null;
            }
        }

        public IState GetNested(UInt32 tag) {
            switch (tag) {
                case 0: return this.BeforeAttacking;
                case 1: return this.BeforeDamaging;
                case 2: return this.Damaging;
                case 3: return this.AfterDamaging;
                case 4: return this.AfterAttacking;
                default: return null;
            }
        }

        public void ReplaceAt(UInt32 tag, WireType wireType, IReader reader, bool shouldNotify) {
            switch (tag) {
                case 0: this.BeforeAttacking = this.MaybeNotify(0, OldAction.Deserialize(reader, this.Path.GetNested(0)), this.BeforeAttacking, OnBeforeAttackingUpdate, shouldNotify); break;
                case 1: this.BeforeDamaging = this.MaybeNotify(1, OldAction.Deserialize(reader, this.Path.GetNested(1)), this.BeforeDamaging, OnBeforeDamagingUpdate, shouldNotify); break;
                case 2: this.Damaging = this.MaybeNotify(2, OldAction.Deserialize(reader, this.Path.GetNested(2)), this.Damaging, OnDamagingUpdate, shouldNotify); break;
                case 3: this.AfterDamaging = this.MaybeNotify(3, OldAction.Deserialize(reader, this.Path.GetNested(3)), this.AfterDamaging, OnAfterDamagingUpdate, shouldNotify); break;
                case 4: this.AfterAttacking = this.MaybeNotify(4, OldAction.Deserialize(reader, this.Path.GetNested(4)), this.AfterAttacking, OnAfterAttackingUpdate, shouldNotify); break;
                case 5: this.Dummy = this.MaybeNotify(5, reader.ReadInt32(), this.Dummy, OnDummyUpdate, shouldNotify); break;
                default: reader.SkipField(wireType); break;
            }
        }

        public void ReplayListPush(IReader reader) { throw new NotSupportedException(); }
        public void ReplayListPop() { throw new NotSupportedException(); }
        public void ReplayMapRemove(UInt32 key) { throw new NotSupportedException(); }

        private TValue MaybeNotify<TValue>(
            UInt32 tag,
            TValue newValue,
            TValue oldValue,
            EventHandler<FieldUpdateEventArgs<TValue, OldHit>> handler,
            bool shouldNotify
        ) {
            if (shouldNotify) {
                var args = new FieldUpdateEventArgs<TValue, OldHit>(tag, newValue, oldValue, this);
                handler?.Invoke(this, args);
            }

            return newValue;
        }
    }
}
".

(** tests/Outer.cs *)
Definition golden_Outer : string :=
"using System;

using Steit.Builtins;
using Steit.Codec;
using Steit.Collections;
using Steit.State;
using Steit.State.Event;

namespace Just.To.Test {
    public sealed partial class Outer : IState {
        public Path Path { get; }

        public Int32 Foo { get; private set; }
        public Boolean Bar { get; private set; }
        public Inner Inner { get; private set; }

        public Outer(Path path = null) {
            this.Path = path ?? Path.Root;
            this.Inner = new Inner(this.Path.GetNested(2));
        }

        public static event EventHandler<FieldUpdateEventArgs<Int32, Outer>> OnFooUpdate;
        public static event EventHandler<FieldUpdateEventArgs<Boolean, Outer>> OnBarUpdate;
        public static event EventHandler<FieldUpdateEventArgs<Inner, Outer>> OnInnerUpdate;

        public static void ClearFooUpdateHandlers() { OnFooUpdate = null; }
        public static void ClearBarUpdateHandlers() { OnBarUpdate = null; }
        public static void ClearInnerUpdateHandlers() { OnInnerUpdate = null; }

        public static void ClearUpdateHandlers() {
            OnFooUpdate = null;
            OnBarUpdate = null;
            OnInnerUpdate = null;
        }

        public static Outer Deserialize(IReader reader, Path path = null) {
            var outer = new Outer(path);
            outer.Replace(reader, shouldNotify: false);
            return outer;
        }

        public WireType? GetWireType(UInt32 tag) {
            switch (tag) {
                case 0: return WireType.Varint;
                case 1: return WireType.Varint;
                case 2: return WireType.Sized;
                default: return null;
            }
        }

        public IState GetNested(UInt32 tag) {
            switch (tag) {
                case 2: return this.Inner;
                default: return null;
            }
        }

        public void ReplaceAt(UInt32 tag, WireType wireType, IReader reader, bool shouldNotify) {
            switch (tag) {
                case 0: this.Foo = this.MaybeNotify(0, reader.ReadInt32(), this.Foo, OnFooUpdate, shouldNotify); break;
                case 1: this.Bar = this.MaybeNotify(1, reader.ReadBoolean(), this.Bar, OnBarUpdate, shouldNotify); break;
                case 2: this.Inner = this.MaybeNotify(2, Inner.Deserialize(reader, this.Path.GetNested(2)), this.Inner, OnInnerUpdate, shouldNotify); break;
                default: reader.SkipField(wireType); break;
            }
        }

        public void ReplayListPush(IReader reader) { throw new NotSupportedException(); }
        public void ReplayListPop() { throw new NotSupportedException(); }
        public void ReplayMapRemove(UInt32 key) { throw new NotSupportedException(); }

        private TValue MaybeNotify<TValue>(
            UInt32 tag,
            TValue newValue,
            TValue oldValue,
            EventHandler<FieldUpdateEventArgs<TValue, Outer>> handler,
            bool shouldNotify
        ) {
            if (shouldNotify) {
                var args = new FieldUpdateEventArgs<TValue, Outer>(tag, newValue, oldValue, this);
                handler?.Invoke(this, args);
            }

            return newValue;
        }
    }
}
".

(** tests/Skill.cs *)
Definition golden_Skill : string :=
"using System;

using Steit.Builtins;
using Steit.Codec;
using Steit.Collections;
using Steit.State;
using Steit.State.Event;

namespace Just.To.Test {
    public sealed partial class Skill : IState {
        public Path Path { get; }

        public UInt16 TargetIndex { get; private set; }
        public Vector<Action> PreCast { get; private set; }
        public Vector<Action> Cast { get; private set; }
        public Vector<Sure<Action>> PostCast { get; private set; }

        public Skill(Path path = null) {
            this.Path = path ?? Path.Root;
            this.PreCast = new Vector<Action>(this.Path.GetNested(1));
            this.Cast = new Vector<Action>(this.Path.GetNested(2));
            this.PostCast = new Vector<Sure<Action>>(this.Path.GetNested(3));
        }

        public static event EventHandler<FieldUpdateEventArgs<UInt16, Skill>> OnTargetIndexUpdate;
        public static event EventHandler<FieldUpdateEventArgs<Vector<Action>, Skill>> OnPreCastUpdate;
        public static event EventHandler<FieldUpdateEventArgs<Vector<Action>, Skill>> OnCastUpdate;
        public static event EventHandler<FieldUpdateEventArgs<Vector<Sure<Action>>, Skill>> OnPostCastUpdate;

        public static void ClearTargetIndexUpdateHandlers() { OnTargetIndexUpdate = null; }
        public static void ClearPreCastUpdateHandlers() { OnPreCastUpdate = null; }
        public static void ClearCastUpdateHandlers() { OnCastUpdate = null; }
        public static void ClearPostCastUpdateHandlers() { OnPostCastUpdate = null; }

        public static void ClearUpdateHandlers() {
            OnTargetIndexUpdate = null;
            OnPreCastUpdate = null;
            OnCastUpdate = null;
            OnPostCastUpdate = null;
        }

        public static Skill Deserialize(IReader reader, Path path = null) {
            var skill = new Skill(path);
            skill.Replace(reader, shouldNotify: false);
            return skill;
        }

        public WireType? GetWireType(UInt32 tag) {
            switch (tag) {
                case 0: return WireType.Varint;
                case 1: return WireType.Sized;
                case 2: return WireType.Sized;
                case 3: return WireType.Sized;
                default: return null;
            }
        }

        public IState GetNested(UInt32 tag) {
            switch (tag) {
                case 1: return this.PreCast;
                case 2: return this.Cast;
                case 3: return this.PostCast;
                default: return null;
            }
        }

        public void ReplaceAt(UInt32 tag, WireType wireType, IReader reader, bool shouldNotify) {
            switch (tag) {
                case 0: this.TargetIndex = this.MaybeNotify(0, reader.ReadUInt16(), this.TargetIndex, OnTargetIndexUpdate, shouldNotify); break;
                case 1: this.PreCast = this.MaybeNotify(1, Vector<Action>.Deserialize(reader, this.Path.GetNested(1)), this.PreCast, OnPreCastUpdate, shouldNotify); break;
                case 2: this.Cast = this.MaybeNotify(2, Vector<Action>.Deserialize(reader, this.Path.GetNested(2)), this.Cast, OnCastUpdate, shouldNotify); break;
                case 3: this.PostCast = this.MaybeNotify(3, Vector<Sure<Action>>.Deserialize(reader, this.Path.GetNested(3)), this.PostCast, OnPostCastUpdate, shouldNotify); break;
                default: reader.SkipField(wireType); break;
            }
        }

        public void ReplayListPush(IReader reader) { throw new NotSupportedException(); }
        public void ReplayListPop() { throw new NotSupportedException(); }
        public void ReplayMapRemove(UInt32 key) { throw new NotSupportedException(); }

        private TValue MaybeNotify<TValue>(
            UInt32 tag,
            TValue newValue,
            TValue oldValue,
            EventHandler<FieldUpdateEventArgs<TValue, Skill>> handler,
            bool shouldNotify
        ) {
            if (shouldNotify) {
                var args = new FieldUpdateEventArgs<TValue, Skill>(tag, newValue, oldValue, this);
                handler?.Invoke(this, args);
            }

            return newValue;
        }
    }
}
".

(** tests/Sure.cs *)
Definition golden_Sure : string :=
"using System;

using Steit.Builtins;
using Steit.Codec;
using Steit.Collections;
using Steit.State;
using Steit.State.Event;

namespace Just.To.Test {
    public sealed partial class Sure<T> : IState {
        public Path Path { get; }
        public T F0 { get; private set; }

        public Sure(Path path = null) {
            StateFactory.ValidateType(typeof(T));
            this.Path = path ?? Path.Root;
            this.F0 = StateFactory.Construct<T>(this.Path.GetNested(0));
        }

        public static event EventHandler<FieldUpdateEventArgs<T, Sure<T>>> OnF0Update;

        public static void ClearF0UpdateHandlers() {
            OnF0Update = null;
        }

        public static void ClearUpdateHandlers() {
            OnF0Update = null;
        }

        public static Sure<T> Deserialize(IReader reader, Path path = null) {
            var sure = new Sure<T>(path);
            sure.Replace(reader, shouldNotify: false);
            return sure;
        }

        public WireType? GetWireType(UInt32 tag) {
            switch (tag) {
                case 0: return StateFactory.IsStateType(typeof(T)) ? WireType.Sized : WireType.Varint;
                default: return null;
            }
        }

        public IState GetNested(UInt32 tag) {
            switch (tag) {
                case 0: return this.F0 as IState;
                default: return null;
            }
        }

        public void ReplaceAt(UInt32 tag, WireType wireType, IReader reader, bool shouldNotify) {
            switch (tag) {
                case 0: this.F0 = this.MaybeNotify(0, StateFactory.Deserialize<T>(reader, this.Path, 0), this.F0, OnF0Update, shouldNotify); break;
                default: reader.SkipField(wireType); break;
            }
        }

        public void ReplayListPush(IReader reader) { throw new NotSupportedException(); }
        public void ReplayListPop() { throw new NotSupportedException(); }
        public void ReplayMapRemove(UInt32 key) { throw new NotSupportedException(); }

        private TValue MaybeNotify<TValue>(
            UInt32 tag,
            TValue newValue,
            TValue oldValue,
            EventHandler<FieldUpdateEventArgs<TValue, Sure<T>>> handler,
            bool shouldNotify
        ) {
            if (shouldNotify) {
                var args = new FieldUpdateEventArgs<TValue, Sure<T>>(tag, newValue, oldValue, this);
                handler?.Invoke(this, args);
            }

            return newValue;
        }
    }
}
".

(** tests/Woof.cs *)
Definition golden_Woof : string :=
"using System;

using Steit.Builtins;
using Steit.Codec;
using Steit.Collections;
using Steit.State;
using Steit.State.Event;

namespace Just.To.Test {
    public sealed partial class Woof : IState {
        public Path Path { get; }
        public StateMap<Int32> Map { get; private set; }

        public Woof(Path path = null) {
            this.Path = path ?? Path.Root;
            this.Map = new StateMap<Int32>(this.Path.GetNested(0));
        }

        public static event EventHandler<FieldUpdateEventArgs<StateMap<Int32>, Woof>> OnMapUpdate;

        public static void ClearMapUpdateHandlers() {
            OnMapUpdate = null;
        }

        public static void ClearUpdateHandlers() {
            OnMapUpdate = null;
        }

        public static Woof Deserialize(IReader reader, Path path = null) {
            var woof = new Woof(path);
            woof.Replace(reader, shouldNotify: false);
            return woof;
        }

        public WireType? GetWireType(UInt32 tag) {
            switch (tag) {
                case 0: return WireType.Sized;
                default: return null;
            }
        }

        public IState GetNested(UInt32 tag) {
            switch (tag) {
                case 0: return this.Map;
                default: return null;
            }
        }

        public void ReplaceAt(UInt32 tag, WireType wireType, IReader reader, bool shouldNotify) {
            switch (tag) {
                case 0: this.Map = this.MaybeNotify(0, StateMap<Int32>.Deserialize(reader, this.Path.GetNested(0)), this.Map, OnMapUpdate, shouldNotify); break;
                default: reader.SkipField(wireType); break;
            }
        }

        public void ReplayListPush(IReader reader) { throw new NotSupportedException(); }
        public void ReplayListPop() { throw new NotSupportedException(); }
        public void ReplayMapRemove(UInt32 key) { throw new NotSupportedException(); }

        private TValue MaybeNotify<TValue>(
            UInt32 tag,
            TValue newValue,
            TValue oldValue,
            EventHandler<FieldUpdateEventArgs<TValue, Woof>> handler,
            bool shouldNotify
        ) {
            if (shouldNotify) {
                var args = new FieldUpdateEventArgs<TValue, Woof>(tag, newValue, oldValue, this);
                handler?.Invoke(this, args);
            }

            return newValue;
        }
    }
}
".

(** src/State/LogEntry.cs *)
Definition golden_LogEntry : string :=
"using System;

using Steit.Builtins;
using Steit.Codec;
using Steit.Collections;
using Steit.State;
using Steit.State.Event;

namespace Steit.State {
    public sealed partial class LogEntry : IEnumState {
        public const UInt32 UpdateTag = 0;
        public const UInt32 ListPushTag = 8;
        public const UInt32 ListPopTag = 9;
        public const UInt32 MapRemoveTag = 12;

        public Path Path { get; }

        public UInt32 Tag { get; private set; }
        public IState Variant { get; private set; }

        public Update UpdateVariant { get { return this.Variant as Update; } }
        public ListPush ListPushVariant { get { return this.Variant as ListPush; } }
        public ListPop ListPopVariant { get { return this.Variant as ListPop; } }
        public MapRemove MapRemoveVariant { get { return this.Variant as MapRemove; } }

        public LogEntry(Path path = null) : this(path, 0) { }

        public LogEntry(Path path, UInt32 tag) {
            this.Path = path ?? Path.Root;
            this.Tag = tag;

            switch (tag) {
                case 0: this.Variant = new Update(this.Path.GetNested(0)); break;
                case 8: this.Variant = new ListPush(this.Path.GetNested(8)); break;
                case 9: this.Variant = new ListPop(this.Path.GetNested(9)); break;
                case 12: this.Variant = new MapRemove(this.Path.GetNested(12)); break;
                default: this.Variant = new Update(this.Path.GetNested(0)); break;
            }
        }

        public static LogEntry NewUpdate(Path path = null) { return new LogEntry(path, 0); }
        public static LogEntry NewListPush(Path path = null) { return new LogEntry(path, 8); }
        public static LogEntry NewListPop(Path path = null) { return new LogEntry(path, 9); }
        public static LogEntry NewMapRemove(Path path = null) { return new LogEntry(path, 12); }

        public static event EventHandler<VariantUpdateEventArgs<LogEntry>> OnUpdate;

        public static void ClearUpdateHandlers() {
            OnUpdate = null;
        }

        public static LogEntry Deserialize(IReader reader, Path path = null) {
            var logEntry = new LogEntry(path);
            logEntry.Replace(reader, shouldNotify: false);
            return logEntry;
        }

        public WireType? GetWireType(UInt32 tag) {
            switch (tag) {
                case 0: return WireType.Sized;
                case 8: return WireType.Sized;
                case 9: return WireType.Sized;
                case 12: return WireType.Sized;
                default: return null;
            }
        }

        public IState GetNested(UInt32 tag) {
            return tag == this.Tag ? this.Variant : null;
        }

        public void ReplaceAt(UInt32 tag, WireType wireType, IReader reader, bool shouldNotify) {
            switch (tag) {
                case 0: this.UpdateAndNotify(0, Update.Deserialize(reader, this.Path.GetNested(0)), shouldNotify); break;
                case 8: this.UpdateAndNotify(8, ListPush.Deserialize(reader, this.Path.GetNested(8)), shouldNotify); break;
                case 9: this.UpdateAndNotify(9, ListPop.Deserialize(reader, this.Path.GetNested(9)), shouldNotify); break;
                case 12: this.UpdateAndNotify(12, MapRemove.Deserialize(reader, this.Path.GetNested(12)), shouldNotify); break;
                default: reader.SkipToEnd(); break;
            }
        }

        public void ReplayListPush(IReader reader) { throw new NotSupportedException(); }
        public void ReplayListPop() { throw new NotSupportedException(); }
        public void ReplayMapRemove(UInt32 key) { throw new NotSupportedException(); }

        private void UpdateAndNotify(UInt32 newTag, IState newVariant, bool shouldNotify) {
            if (shouldNotify) {
                var args = new VariantUpdateEventArgs<LogEntry>(newTag, newVariant, this.Tag, this.Variant, this);
                LogEntry.OnUpdate?.Invoke(this, args);
            }

            this.Tag = newTag;
            this.Variant = newVariant;
        }

        // Variant (0): Update

        public sealed partial class Update : IState {
            public Path Path { get; }

            public Vector<UInt32> FlattenPath { get; private set; }
            public Bytes Value { get; private set; }

            internal Update(Path path = null) {
                this.Path = path ?? Path.Root;
                this.FlattenPath = new Vector<UInt32>(this.Path.GetNested(0));
                this.Value = new Bytes(this.Path.GetNested(1));
            }

            public static event EventHandler<FieldUpdateEventArgs<Vector<UInt32>, Update>> OnFlattenPathUpdate;
            public static event EventHandler<FieldUpdateEventArgs<Bytes, Update>> OnValueUpdate;

            public static void ClearFlattenPathUpdateHandlers() { OnFlattenPathUpdate = null; }
            public static void ClearValueUpdateHandlers() { OnValueUpdate = null; }

            public static void ClearUpdateHandlers() {
                OnFlattenPathUpdate = null;
                OnValueUpdate = null;
            }

            internal static Update Deserialize(IReader reader, Path path = null) {
                var update = new Update(path);
                update.Replace(reader, shouldNotify: false);
                return update;
            }

            public WireType? GetWireType(UInt32 tag) {
                switch (tag) {
                    case 0: return WireType.Sized;
                    case 1: return WireType.Sized;
                    default: return null;
                }
            }

            public IState GetNested(UInt32 tag) {
                switch (tag) {
                    case 0: return this.FlattenPath;
                    case 1: return this.Value;
                    default: return null;
                }
            }

            public void ReplaceAt(UInt32 tag, WireType wireType, IReader reader, bool shouldNotify) {
                switch (tag) {
                    case 0: this.FlattenPath = this.MaybeNotify(0, Vector<UInt32>.Deserialize(reader, this.Path.GetNested(0)), this.FlattenPath, OnFlattenPathUpdate, shouldNotify); break;
                    case 1: this.Value = this.MaybeNotify(1, Bytes.Deserialize(reader, this.Path.GetNested(1)), this.Value, OnValueUpdate, shouldNotify); break;
                    default: reader.SkipField(wireType); break;
                }
            }

            public void ReplayListPush(IReader reader) { throw new NotSupportedException(); }
            public void ReplayListPop() { throw new NotSupportedException(); }
            public void ReplayMapRemove(UInt32 key) { throw new NotSupportedException(); }

            private TValue MaybeNotify<TValue>(
                UInt32 tag,
                TValue newValue,
                TValue oldValue,
                EventHandler<FieldUpdateEventArgs<TValue, Update>> handler,
                bool shouldNotify
            ) {
                if (shouldNotify) {
                    var args = new FieldUpdateEventArgs<TValue, Update>(tag, newValue, oldValue, this);
                    handler?.Invoke(this, args);
                }

                return newValue;
            }
        }

        // Variant (8): ListPush

        public sealed partial class ListPush : IState {
            public Path Path { get; }

            public Vector<UInt32> FlattenPath { get; private set; }
            public Bytes Item { get; private set; }

            internal ListPush(Path path = null) {
                this.Path = path ?? Path.Root;
                this.FlattenPath = new Vector<UInt32>(this.Path.GetNested(0));
                this.Item = new Bytes(this.Path.GetNested(1));
            }

            public static event EventHandler<FieldUpdateEventArgs<Vector<UInt32>, ListPush>> OnFlattenPathUpdate;
            public static event EventHandler<FieldUpdateEventArgs<Bytes, ListPush>> OnItemUpdate;

            public static void ClearFlattenPathUpdateHandlers() { OnFlattenPathUpdate = null; }
            public static void ClearItemUpdateHandlers() { OnItemUpdate = null; }

            public static void ClearUpdateHandlers() {
                OnFlattenPathUpdate = null;
                OnItemUpdate = null;
            }

            internal static ListPush Deserialize(IReader reader, Path path = null) {
                var listPush = new ListPush(path);
                listPush.Replace(reader, shouldNotify: false);
                return listPush;
            }

            public WireType? GetWireType(UInt32 tag) {
                switch (tag) {
                    case 0: return WireType.Sized;
                    case 1: return WireType.Sized;
                    default: return null;
                }
            }

            public IState GetNested(UInt32 tag) {
                switch (tag) {
                    case 0: return this.FlattenPath;
                    case 1: return this.Item;
                    default: return null;
                }
            }

            public void ReplaceAt(UInt32 tag, WireType wireType, IReader reader, bool shouldNotify) {
                switch (tag) {
                    case 0: this.FlattenPath = this.MaybeNotify(0, Vector<UInt32>.Deserialize(reader, this.Path.GetNested(0)), this.FlattenPath, OnFlattenPathUpdate, shouldNotify); break;
                    case 1: this.Item = this.MaybeNotify(1, Bytes.Deserialize(reader, this.Path.GetNested(1)), this.Item, OnItemUpdate, shouldNotify); break;
                    default: reader.SkipField(wireType); break;
                }
            }

            public void ReplayListPush(IReader reader) { throw new NotSupportedException(); }
            public void ReplayListPop() { throw new NotSupportedException(); }
            public void ReplayMapRemove(UInt32 key) { throw new NotSupportedException(); }

            private TValue MaybeNotify<TValue>(
                UInt32 tag,
                TValue newValue,
                TValue oldValue,
                EventHandler<FieldUpdateEventArgs<TValue, ListPush>> handler,
                bool shouldNotify
            ) {
                if (shouldNotify) {
                    var args = new FieldUpdateEventArgs<TValue, ListPush>(tag, newValue, oldValue, this);
                    handler?.Invoke(this, args);
                }

                return newValue;
            }
        }

        // Variant (9): ListPop

        public sealed partial class ListPop : IState {
            public Path Path { get; }
            public Vector<UInt32> FlattenPath { get; private set; }

            internal ListPop(Path path = null) {
                this.Path = path ?? Path.Root;
                this.FlattenPath = new Vector<UInt32>(this.Path.GetNested(0));
            }

            public static event EventHandler<FieldUpdateEventArgs<Vector<UInt32>, ListPop>> OnFlattenPathUpdate;

            public static void ClearFlattenPathUpdateHandlers() {
                OnFlattenPathUpdate = null;
            }

            public static void ClearUpdateHandlers() {
                OnFlattenPathUpdate = null;
            }

            internal static ListPop Deserialize(IReader reader, Path path = null) {
                var listPop = new ListPop(path);
                listPop.Replace(reader, shouldNotify: false);
                return listPop;
            }

            public WireType? GetWireType(UInt32 tag) {
                switch (tag) {
                    case 0: return WireType.Sized;
                    default: return null;
                }
            }

            public IState GetNested(UInt32 tag) {
                switch (tag) {
                    case 0: return this.FlattenPath;
                    default: return null;
                }
            }

            public void ReplaceAt(UInt32 tag, WireType wireType, IReader reader, bool shouldNotify) {
                switch (tag) {
                    case 0: this.FlattenPath = this.MaybeNotify(0, Vector<UInt32>.Deserialize(reader, this.Path.GetNested(0)), this.FlattenPath, OnFlattenPathUpdate, shouldNotify); break;
                    default: reader.SkipField(wireType); break;
                }
            }

            public void ReplayListPush(IReader reader) { throw new NotSupportedException(); }
            public void ReplayListPop() { throw new NotSupportedException(); }
            public void ReplayMapRemove(UInt32 key) { throw new NotSupportedException(); }

            private TValue MaybeNotify<TValue>(
                UInt32 tag,
                TValue newValue,
                TValue oldValue,
                EventHandler<FieldUpdateEventArgs<TValue, ListPop>> handler,
                bool shouldNotify
            ) {
                if (shouldNotify) {
                    var args = new FieldUpdateEventArgs<TValue, ListPop>(tag, newValue, oldValue, this);
                    handler?.Invoke(this, args);
                }

                return newValue;
            }
        }

        // Variant (12): MapRemove

        public sealed partial class MapRemove : IState {
            public Path Path { get; }

            public Vector<UInt32> FlattenPath { get; private set; }
            public UInt32 Key { get; private set; }

            internal MapRemove(Path path = null) {
                this.Path = path ?? Path.Root;
                this.FlattenPath = new Vector<UInt32>(this.Path.GetNested(0));
            }

            public static event EventHandler<FieldUpdateEventArgs<Vector<UInt32>, MapRemove>> OnFlattenPathUpdate;
            public static event EventHandler<FieldUpdateEventArgs<UInt32, MapRemove>> OnKeyUpdate;

            public static void ClearFlattenPathUpdateHandlers() { OnFlattenPathUpdate = null; }
            public static void ClearKeyUpdateHandlers() { OnKeyUpdate = null; }

            public static void ClearUpdateHandlers() {
                OnFlattenPathUpdate = null;
                OnKeyUpdate = null;
            }

            internal static MapRemove Deserialize(IReader reader, Path path = null) {
                var mapRemove = new MapRemove(path);
                mapRemove.Replace(reader, shouldNotify: false);
                return mapRemove;
            }

            public WireType? GetWireType(UInt32 tag) {
                switch (tag) {
                    case 0: return WireType.Sized;
                    case 1: return WireType.Varint;
                    default: return null;
                }
            }

            public IState GetNested(UInt32 tag) {
                switch (tag) {
                    case 0: return this.FlattenPath;
                    default: return null;
                }
            }

            public void ReplaceAt(UInt32 tag, WireType wireType, IReader reader, bool shouldNotify) {
                switch (tag) {
                    case 0: this.FlattenPath = this.MaybeNotify(0, Vector<UInt32>.Deserialize(reader, this.Path.GetNested(0)), this.FlattenPath, OnFlattenPathUpdate, shouldNotify); break;
                    case 1: this.Key = this.MaybeNotify(1, reader.ReadUInt32(), this.Key, OnKeyUpdate, shouldNotify); break;
                    default: reader.SkipField(wireType); break;
                }
            }

            public void ReplayListPush(IReader reader) { throw new NotSupportedException(); }
            public void ReplayListPop() { throw new NotSupportedException(); }
            public void ReplayMapRemove(UInt32 key) { throw new NotSupportedException(); }

            private TValue MaybeNotify<TValue>(
                UInt32 tag,
                TValue newValue,
                TValue oldValue,
                EventHandler<FieldUpdateEventArgs<TValue, MapRemove>> handler,
                bool shouldNotify
            ) {
                if (shouldNotify) {
                    var args = new FieldUpdateEventArgs<TValue, MapRemove>(tag, newValue, oldValue, this);
                    handler?.Invoke(this, args);
                }

                return newValue;
            }
        }
    }
}
".

(** src/Builtins/Maybe.cs *)
Definition golden_Maybe : string :=
"using System;

using Steit.Builtins;
using Steit.Codec;
using Steit.Collections;
using Steit.State;
using Steit.State.Event;

namespace Steit.Builtins {
    public sealed partial class Maybe<T> : IEnumState {
        public const UInt32 NoneTag = 0;
        public const UInt32 SomeTag = 1;

        public Path Path { get; }

        public UInt32 Tag { get; private set; }
        public IState Variant { get; private set; }

        public None NoneVariant { get { return this.Variant as None; } }
        public Some SomeVariant { get { return this.Variant as Some; } }

        public Maybe(Path path = null) : this(path, 0) { }

        public Maybe(Path path, UInt32 tag) {
            StateFactory.ValidateType(typeof(T));
            this.Path = path ?? Path.Root;
            this.Tag = tag;

            switch (tag) {
                case 0: this.Variant = new None(this.Path.GetNested(0)); break;
                case 1: this.Variant = new Some(this.Path.GetNested(1)); break;
                default: this.Variant = new None(this.Path.GetNested(0)); break;
            }
        }

        public static Maybe NewNone(Path path = null) { return new Maybe(path, 0); }
        public static Maybe NewSome(Path path = null) { return new Maybe(path, 1); }

        public static event EventHandler<VariantUpdateEventArgs<Maybe<T>>> OnUpdate;

        public static void ClearUpdateHandlers() {
            OnUpdate = null;
        }

        public static Maybe<T> Deserialize(IReader reader, Path path = null) {
            var maybe = new Maybe<T>(path);
            maybe.Replace(reader, shouldNotify: false);
            return maybe;
        }

        public WireType? GetWireType(UInt32 tag) {
            switch (tag) {
                case 0: return WireType.Sized;
                case 1: return WireType.Sized;
                default: return null;
            }
        }

        public IState GetNested(UInt32 tag) {
            return tag == this.Tag ? this.Variant : null;
        }

        public void ReplaceAt(UInt32 tag, WireType wireType, IReader reader, bool shouldNotify) {
            switch (tag) {
                case 0: this.UpdateAndNotify(0, None.Deserialize(reader, this.Path.GetNested(0)), shouldNotify); break;
                case 1: this.UpdateAndNotify(1, Some.Deserialize(reader, this.Path.GetNested(1)), shouldNotify); break;
                default: reader.SkipToEnd(); break;
            }
        }

        public void ReplayListPush(IReader reader) { throw new NotSupportedException(); }
        public void ReplayListPop() { throw new NotSupportedException(); }
        public void ReplayMapRemove(UInt32 key) { throw new NotSupportedException(); }

        private void UpdateAndNotify(UInt32 newTag, IState newVariant, bool shouldNotify) {
            if (shouldNotify) {
                var args = new VariantUpdateEventArgs<Maybe<T>>(newTag, newVariant, this.Tag, this.Variant, this);
                Maybe<T>.OnUpdate?.Invoke(this, args);
            }

            this.Tag = newTag;
            this.Variant = newVariant;
        }

        // Variant (0): None

        public sealed partial class None : IState {
            public Path Path { get; }

            internal None(Path path = null) {
                this.Path = path ?? Path.Root;
            }

            public static void ClearUpdateHandlers() { }

            internal static None Deserialize(IReader reader, Path path = null) {
                var none = new None(path);
                none.Replace(reader, shouldNotify: false);
                return none;
            }

            public WireType? GetWireType(UInt32 tag) {
                switch (tag) {
                    default: return null;
                }
            }

            public IState GetNested(UInt32 tag) {
                switch (tag) {
                    default: return null;
                }
            }

            public void ReplaceAt(UInt32 tag, WireType wireType, IReader reader, bool shouldNotify) {
                switch (tag) {
                    default: reader.SkipField(wireType); break;
                }
            }

            public void ReplayListPush(IReader reader) { throw new NotSupportedException(); }
            public void ReplayListPop() { throw new NotSupportedException(); }
            public void ReplayMapRemove(UInt32 key) { throw new NotSupportedException(); }

            private TValue MaybeNotify<TValue>(
                UInt32 tag,
                TValue newValue,
                TValue oldValue,
                EventHandler<FieldUpdateEventArgs<TValue, None>> handler,
                bool shouldNotify
            ) {
                if (shouldNotify) {
                    var args = new FieldUpdateEventArgs<TValue, None>(tag, newValue, oldValue, this);
                    handler?.Invoke(this, args);
                }

                return newValue;
            }
        }

        // Variant (1): Some

        public sealed partial class Some : IState {
            public Path Path { get; }
            public T F0 { get; private set; }

            internal Some(Path path = null) {
                this.Path = path ?? Path.Root;
                this.F0 = StateFactory.Construct<T>(this.Path.GetNested(0));
            }

            public static event EventHandler<FieldUpdateEventArgs<T, Some>> OnF0Update;

            public static void ClearF0UpdateHandlers() {
                OnF0Update = null;
            }

            public static void ClearUpdateHandlers() {
                OnF0Update = null;
            }

            internal static Some Deserialize(IReader reader, Path path = null) {
                var some = new Some(path);
                some.Replace(reader, shouldNotify: false);
                return some;
            }

            public WireType? GetWireType(UInt32 tag) {
                switch (tag) {
                    case 0: return StateFactory.IsStateType(typeof(T)) ? WireType.Sized : WireType.Varint;
                    default: return null;
                }
            }

            public IState GetNested(UInt32 tag) {
                switch (tag) {
                    case 0: return this.F0 as IState;
                    default: return null;
                }
            }

            public void ReplaceAt(UInt32 tag, WireType wireType, IReader reader, bool shouldNotify) {
                switch (tag) {
                    case 0: this.F0 = this.MaybeNotify(0, StateFactory.Deserialize<T>(reader, this.Path, 0), this.F0, OnF0Update, shouldNotify); break;
                    default: reader.SkipField(wireType); break;
                }
            }

            public void ReplayListPush(IReader reader) { throw new NotSupportedException(); }
            public void ReplayListPop() { throw new NotSupportedException(); }
            public void ReplayMapRemove(UInt32 key) { throw new NotSupportedException(); }

            private TValue MaybeNotify<TValue>(
                UInt32 tag,
                TValue newValue,
                TValue oldValue,
                EventHandler<FieldUpdateEventArgs<TValue, Some>> handler,
                bool shouldNotify
            ) {
                if (shouldNotify) {
                    var args = new FieldUpdateEventArgs<TValue, Some>(tag, newValue, oldValue, this);
                    handler?.Invoke(this, args);
                }

                return newValue;
            }
        }
    }
}
".
